(* Model of symmetrize_monomial (564-579) and bloch_family (582-726) of
   qsymm/hamiltonian_generator.py, and of Model.around (qsymm/model.py:585-592).

   [K] is the type of keys: of a Model (bloch_model=False) or of a BlochModel
   (bloch_model=True); [hopkey vec] is e**(I*vec.k), lines 681-688, and [kc] the
   substitution I -> -I.  The matrices have n.+1 rows, the sum N of norbs.
   Arithmetic is exact, apart from the rounding function [rnd] of np.around.
   The check for floating point rotations (654-658) is not modelled: elements of
   exact and floating point type are not distinguished. *)
From mathcomp Require Import all_ssreflect all_algebra.
From mathcomp Require Import complex.
From Verif Require Import Prelude PySet GroupGen ModelCore PGE Keys Family FamilyTools.

Set Implicit Arguments.
Unset Strict Implicit.
Unset Printing Implicit Defensive.
Import GRing.Theory Num.Theory.
Local Open Scope ring_scope.
Local Open Scope complex_scope.

Section Symmetrize.
Variables (F : rcfType) (n1 n2 : nat) (K : eqType) (kone : K) (Mom : eqType).
Local Notation C := F[i].
Local Notation V := [lmodType C of 'M[C]_(n1, n2)].
Local Notation model := (model K Mom V).

(* sum([sym.apply(monomial) for sym in symmetries]) * (1/len(symmetries)), line 579.
   The sum of an empty list is the number 0, and 1/0 raises. *)
Definition symmetrize_monomial (Sy : Type) (sapply : Sy -> model -> res model)
    (monomial : model) (symmetries : seq Sy) : res model :=
  do images <- mapM (fun s => sapply s monomial) symmetries;
  if nilp symmetries then Err ZeroDivisionError
  else
    do total <- psum kone images;
    Ok (mscale (size symmetries)%:R^-1 total).

(* Model.around; the comparison of the rounded value with 0 is exact *)
Definition around (rnd : C -> C) (m : model) : model :=
  Mk [seq kv <- [seq (kv.1, map_mx rnd kv.2 : V) | kv <- mdata m] | kv.2 != 0] (mkeep m) (mmom m).

(* term == {}: Model.__eq__ and allclose, model.py:300-302, 697-702 *)
Definition is_zero_model (m : model) : bool := all (fun kv => kv.2 == 0) (mdata m).
End Symmetrize.

Section Bloch.
Variables (F : rcfType) (d n : nat) (K : eqType) (kone : K) (Mom : eqType) (mom : Mom) (Site : eqType).
Local Notation C := F[i].
Local Notation mat := [lmodType C of 'M[C]_n.+1].
Local Notation model := (model K Mom mat).
Local Notation pge := (pge F d n).
Variables (hopkey : 'rV[F]_d -> K) (kc : K -> K).
(* PointGroupElement.apply for this kind of Model *)
Variable papply : pge -> model -> res model.

(* PointGroupElements and ContinuousGroupGenerators *)
Inductive bsym := BPoint of pge | BCont of option 'M[C]_d & option 'M[C]_n.+1.
Definition points (l : seq bsym) : seq pge := pmap (fun s => if s is BPoint g then Some g else None) l.
Definition conts (l : seq bsym) : seq (option 'M[C]_d * option 'M[C]_n.+1) :=
  pmap (fun s => if s is BCont R U then Some (R, U) else None) l.

(* OrderedDict(norbs), line 642: a repeated site keeps its place, the last number wins *)
Fixpoint od_set (D : seq (Site * nat)) (a : Site) (v : nat) : seq (Site * nat) :=
  if D is kv :: D' then if kv.1 == a then (a, v) :: D' else kv :: od_set D' a v else [:: (a, v)].
Definition odict (l : seq (Site * nat)) : seq (Site * nat) := foldl (fun D kv => od_set D kv.1 kv.2) [::] l.

(* first index and number of orbitals of a site, lines 643-646 *)
Fixpoint site_range (start : nat) (norbs : seq (Site * nat)) (a : Site) : res (nat * nat) :=
  if norbs is kv :: norbs' then
    if kv.1 == a then Ok (start, kv.2) else site_range (start + kv.2) norbs' a
  else Err KeyError.

(* matrix[ranges[a], ranges[b]] = mat for mat = z * (the r-th element of
   eye(n*m).reshape((n*m, n, m))), lines 677-678, 691-692 *)
Definition block (ra rb : nat * nat) (z : C) (r : nat) : 'M[C]_n.+1 :=
  \matrix_(i, j) if (i == ra.1 + r %/ rb.2 :> nat)%N && (j == rb.1 + r %% rb.2 :> nat)%N then z else 0.

(* term + term.T().conj(), lines 693-697 *)
Definition hermitian_term (vec : 'rV[F]_d) (A : 'M[C]_n.+1) : res model :=
  let term := construct kone id [:: (hopkey vec, A : mat)] [::] mom in
  do t <- mconj kone kc (@mxconj F n.+1 n.+1) (mmap (W := mat) (fun A => A^T) term);
  madd kone term t.

(* ContinuousGroupGenerator.apply with R = 0 or None (groups.py:553-575) works for
   both kinds of Models *)
Definition onsite_apply (g : option 'M[C]_d * option 'M[C]_n.+1) (m : model) : res model :=
  let Uz := if g.2 is Some U' then if U' == 0 then None else Some U' else None in
  if Uz is Some U' then
    do c <- madd kone (mmap (W := mat) (fun A => A *m ('i *: U')) m)
             (mmap (W := mat) (fun A => (- 'i *: U') *m A) m);
    madd kone (zeros_like mat m) c
  else Ok (zeros_like mat m).

Variable ns : forall N, seq 'rV[F]_N -> seq 'rV[F]_N.      (* nullspace *)
Variable cs : forall N, seq 'rV[F]_N -> seq 'rV[F]_N.      (* its complement *)

(* the terms of one hopping, lines 674-702 *)
Definition hopfamily (norbs : seq (Site * nat)) (conserved : seq (option 'M[C]_d * option 'M[C]_n.+1))
    (hop : Site * Site * 'rV[F]_d) : res (seq model) :=
  let: (a, b, vec) := hop in
  do ra <- site_range 0 norbs a;
  do rb <- site_range 0 norbs b;
  let rs := iota 0 (ra.2 * rb.2) in
  do fam <- mapM (hermitian_term vec) ([seq block ra rb 1 r | r <- rs] ++ [seq block ra rb 'i r | r <- rs]);
  if nilp conserved then Ok fam
  else constrain_family kone onsite_apply (fun=> false) (fun g => g.2 != None) ns conserved fam.

(* lines 640-703: all terms before symmetrisation.  Vectors have d components by typing
   (assertion 662); hopping_vectors[0] raises for an empty list (661). *)
Definition all_terms (hopping_vectors : seq (Site * Site * 'rV[F]_d)) (symmetries : seq bsym)
    (norbs : seq (Site * nat)) (onsites : bool) : res (seq model) :=
  let norbs := odict norbs in
  let conserved := conts symmetries in
  if ~~ all (fun g => if g.1 is Some R then R == 0 else true) conserved then Err ValueError
  else if nilp hopping_vectors then Err IndexError
  else
    let hops := if onsites then hopping_vectors ++ [seq (kv.1, kv.1, 0 : 'rV[F]_d) | kv <- norbs]
                else hopping_vectors in
    do fams <- mapM (hopfamily norbs conserved) hops;
    Ok (flatten fams).

(* g._strict_eq = True, lines 706-707.  The assignment is made on the objects of the
   caller; [strictify] is their state after the call. *)
Definition set_strict (g : pge) : pge := Pge (pR g) (pconj g) (panti g) (pU g) true.
Definition strictify (l : seq bsym) : seq bsym :=
  [seq (if s is BPoint g then BPoint (set_strict g) else s) | s <- l].

Variable ord : seq pge -> seq pge.        (* order in which sets are enumerated *)
Variable fuel : nat.                      (* for generate_group *)
Variable rnd : C -> C.                    (* np.around(., num_digits) *)
Variable pretty : seq model -> res (seq model).    (* make_basis_pretty *)

(* lines 709-715 *)
Definition symmetrized (family : seq model) (group : seq pge) : res (seq model) :=
  do terms <- mapM (fun t => symmetrize_monomial kone papply t (ord group)) family;
  let terms := [seq around rnd t | t <- terms] in
  remove_duplicates kone cs [seq t <- terms | ~~ is_zero_model t].

(* bloch_family; None if generate_group does not terminate with the given fuel *)
Definition bloch_family (hopping_vectors : seq (Site * Site * 'rV[F]_d)) (symmetries : seq bsym)
    (norbs : seq (Site * nat)) (onsites symmetrize prettify : bool) : option (res (seq model)) :=
  let finish r := do family <- r; if prettify then pretty family else Ok family in
  match all_terms hopping_vectors symmetries norbs onsites with
  | Err e => Some (Err e)
  | Ok family =>
    if symmetrize then
      let pg := [seq set_strict g | g <- points symmetries] in
      if generate_group (@pge_eq F d n) (@pge_mul F d n) ord fuel (set_of (@pge_eq F d n) pg) is Some group
      then Some (finish (symmetrized family group))
      else None
    else
      Some (finish (do family <- remove_duplicates kone cs family;
                    constrain_family kone papply xpredT (fun g => pU g != None) ns
                      (points symmetries) family))
  end.
End Bloch.
