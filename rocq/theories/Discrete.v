(* symmetry_finder.py: _find_unitary on Models (461-533), discrete_symmetries (373-458) and the driver symmetries
   (22-104).  model.py: eliminate_zeros 708-725, allclose 697-706. *)
From mathcomp Require Import all_ssreflect all_algebra.
From mathcomp Require Import complex.
From Verif Require Import Prelude PySet GroupGen ModelCore PGE PGEGroup Keys LinSpan Linalg SymBlocks SimultDiag Sun Symmetries ContSym.

Set Implicit Arguments.
Unset Strict Implicit.
Unset Printing Implicit Defensive.
Import GRing.Theory.
Local Open Scope ring_scope.

Section Models.
(* K: keys of a Model or of a BlochModel; k1: the key 1 *)
Variables (F : rcfType) (d n : nat) (K : eqType) (k1 : K) (Mom : eqType).
Local Notation C := F[i].
Local Notation mat := [lmodType C of 'M[C]_n.+1].
Local Notation model := (model K Mom mat).
Local Notation pge := (pge F d n).
Local Notation npge := (npge F d n).
(* eliminate_zeros 708-725; the tolerance is positive and smaller than the norm of any non-zero value *)
Definition nonzero (m : model) : model := Mk [seq kv <- mdata m | kv.2 != 0] (mkeep m) (mmom m).
(* model.keys() == Rmodel.keys(): comparison as sets *)
Definition same_keys (a b : model) : bool :=
  all (fun k => k \in dkeys k1 (mdata b)) (dkeys k1 (mdata a)) && all (fun k => k \in dkeys k1 (mdata a)) (dkeys k1 (mdata b)).
(* __eq__ 300-302 and allclose 697-706 with exact comparison *)
Definition model_eq (a b : model) : bool :=
  all (fun k => dget k1 (mdata a) (Sym k) == dget k1 (mdata b) (Sym k)) (dkeys k1 (mdata a) ++ dkeys k1 (mdata b)).

Variables (eigh : forall n, 'M[C]_n -> seq F * 'M[C]_n).
Variables (nsR : forall N, seq 'rV[F]_N -> seq 'rV[F]_N) (nsC : forall N, seq 'rV[C]_N -> seq 'rV[C]_N).
(* PointGroupElement.apply *)
Variable apply : pge -> model -> res model.
(* the lists HR and HL, 507-514 *)
Definition coefs_R (m : model) (t : 'I_(size (mdata m))) : 'M[C]_n.+1 := (nth (RawOne, 0) (mdata m) t).2.
Definition coefs_L (m Rm : model) (t : 'I_(size (mdata m))) : 'M[C]_n.+1 := dget k1 (mdata Rm) (nth (RawOne, 0) (mdata m) t).1.
(* _find_unitary, 489-533 without `checks`.  Of the result only U is given.  Without any term the first call of
   solve_mat_eqn in _find_unitary_blocks (571) reads HL[0] (linalg.py:441). *)
Definition find_model (Ps : seq (stack F n.+1)) (m : model) (g : pge) : res (option 'M[C]_n.+1) :=
  if pU g is Some _ then Err ValueError else
  let m := nonzero m in
  do Rm <- apply g m;
  let Rm := nonzero Rm in
  if ~~ same_keys m Rm then Ok None else
  if nilp (mdata m) then Err IndexError else
  let squares_to_1 := pge_eq (pge_mul g g) (pge_identity g) in
  find_unitary_in eigh nsR nsC Ps (@coefs_L m Rm) (@coefs_R m) (pconj g) squares_to_1.

(* PointGroupElement(g.R, g.conjugate, g.antisymmetry, S), 533 *)
Definition set_U (g : pge) (U : 'M[C]_n.+1) : pge := Pge (pR g) (pconj g) (panti g) (Some U) false.
Lemma set_U_subproof (g : npge) U : (pR (set_U (val g) U) \in unitmx) && ~~ pstrict (set_U (val g) U).
Proof. by rewrite andbT; case/andP: (valP g). Qed.
Definition nset_U (g : npge) U : npge := exist (fun g : pge => (pR g \in unitmx) && ~~ pstrict g) (set_U (val g) U) (set_U_subproof g U).
(* candidates are invertible and compared without U.  An exception in _find_unitary is not represented here: C101_find
   shows that there is none. *)
Definition found (Ps : seq (stack F n.+1)) (m : model) (g : npge) : option npge :=
  if find_model Ps m (val g) is Ok (Some U) then Some (nset_U g U) else None.
(* 430: gr.apply(model) == model *)
Definition invariant (m : model) (g : npge) : bool := if apply (val g) m is Ok m' then model_eq m' m else false.
(* 412-413: e = candidate.identity(); e.U = np.eye(...) *)
Definition unit_of (g : npge) : npge := nset_U (npge_identity g) 1%:M.

(* discrete_symmetries with given Ps: the sets (symset, genset) *)
Definition discrete (ord : seq npge -> seq npge) (pick : npge -> seq npge -> npge) (fuel gf : nat) (Ps : seq (stack F n.+1)) (m : model) (candidates : seq npge)
    : option (res (seq npge * seq npge)) :=
  discrete_symmetries (@npge_eq F d n) (@npge_mul F d n) ord (@npge_inv F d n) pick (found Ps m) (invariant m) fuel gf unit_of candidates.

(* 92-95: generate_group({time_reversal(dim), particle_hole(dim), chiral(dim)}) *)
Lemma onsite_subproof (c a : bool) : (pR (Pge 1%:M c a None false : pge) \in unitmx) && ~~ pstrict (Pge 1%:M c a None false : pge).
Proof. by rewrite unitmx1. Qed.
Definition onsite (c a : bool) : npge := exist (fun g : pge => (pR g \in unitmx) && ~~ pstrict g) (Pge 1%:M c a None false) (onsite_subproof c a).
Definition default_candidates (ord : seq npge -> seq npge) (gf : nat) : option (seq npge) :=
  generate_group (@npge_eq F d n) (@npge_mul F d n) ord gf [:: onsite true false; onsite true true; onsite false true].

(* the driver, 76-104.  [reduce] is _reduce_hamiltonian, [contin] is continuous_symmetries, [sort] is sorted().
   A conserved quantity is a generator (0, L).  The result is None when the fuel does not suffice. *)
Definition symmetries (reduce : seq 'M[C]_n.+1 -> res (seq (stack F n.+1))) (contin : seq (stack F n.+1) -> res (seq ('M[C]_d * 'M[C]_n.+1)))
    (ord : seq npge -> seq npge) (pick : npge -> seq npge -> npge) (sort : seq npge -> seq npge) (fuel gf : nat)
    (m : model) (candidates : option (seq npge)) (continuous_rotations generators : bool)
    : option (res (seq npge * seq ('M[C]_d * 'M[C]_n.+1))) :=
  match (do Ps <- reduce [seq kv.2 | kv <- mdata m];
         do rotations <- (if continuous_rotations then contin Ps else Ok [::]);
         Ok (Ps, [seq (0, L) | L <- onsite_symmetries Ps] ++ rotations)) with
  | Err e => Some (Err e)
  | Ok (Ps, cont_sym) =>
    match (if candidates is Some c then Some c else default_candidates ord gf) with
    | None => None
    | Some [::] => Some (Ok ([::], cont_sym))
    | Some c =>
      match discrete ord pick fuel gf Ps m c with
      | Some (Ok (symset, genset)) => Some (Ok (sort (if generators then genset else symset), cont_sym))
      | Some (Err e) => Some (Err e)
      | None => None
      end
    end
  end.
End Models.
