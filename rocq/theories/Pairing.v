(* Model of qsymm/hamiltonian_generator.py: continuum_pairing (84-183).  Particle-hole space has n.+1 + n.+1 components, electrons
   first.  [mom] stands for momenta[:dim], the momenta of the models of the family; [default_mom] for the momenta a Model has
   when none are given. *)
From mathcomp Require Import all_ssreflect all_algebra.
From mathcomp Require Import complex.
From Verif Require Import Prelude ModelCore PGE Keys Linalg Family PropConstrain Continuum.

Set Implicit Arguments.
Unset Strict Implicit.
Unset Printing Implicit Defensive.
Import GRing.Theory.
Local Open Scope ring_scope.

Section Pairing.
Variables (F : rcfType) (d n : nat) (P : eqType) (pone : P) (pc : P -> P) (Mom : eqType) (mom default_mom : Mom).
Local Notation C := F[i].
Local Notation key := (key F d P).
Local Notation n2 := (n + n.+1)%N.
Local Notation mat := [lmodType C of 'M[C]_n.+1].
Local Notation mat2 := [lmodType C of 'M[C]_n2.+1].
Local Notation kmodel := (model [eqType of key] Mom mat).
Local Notation kmodel2 := (model [eqType of key] Mom mat2).
Let ko : [eqType of key] := kone F d pone.

(* la.block_diag(U, V); np.block([[A, B], [C, D]]) *)
Definition block2 (W X Y Z : 'M[C]_n.+1) : 'M[C]_n2.+1 := block_mx W X Y Z : 'M[C]_(n.+1 + n.+1).

(* 144-149; a missing U has no conj: AttributeError *)
Definition extend (s : symmetry F d n) (phase : C) : res (symmetry F d n2) :=
  match s with
  | Discrete g =>
      if pU g is Some U then
        Ok (Discrete (Pge (pR g) (pconj g) (panti g) (Some (block2 U 0 0 (phase *: mxconj U))) (pstrict g)))
      else Err AttributeError
  | Continuous R oU =>
      if oU is Some U then Ok (Continuous R (Some (block2 U 0 0 (- mxconj U + phase%:M)))) else Err AttributeError
  end.

(* 151-153 *)
Definition ph_operator (ph_square : int) : symmetry F d n2 :=
  Discrete (Pge 1%:M true true (Some (block2 0 1%:M (ph_square%:~R)%:M 0)) false).

(* 157-160 *)
Definition off_diagonal (m : 'M[C]_n.+1) : 'M[C]_n2.+1 := block2 0 m (dagger m) 0.
Definition pairing_basis : seq 'M[C]_n2.+1 :=
  [seq off_diagonal m | m <- matrix_basis n.+1 false false false] ++
  [seq block2 0 ('i%C *: m) (- 'i%C *: dagger m) 0 | m <- matrix_basis n.+1 false false false].

(* Model({term: matrix[:N, N:] for term, matrix in monomial.items()}), 181-182 *)
Definition upper_right (X : 'M[C]_n2.+1) : 'M[C]_n.+1 := ursubmx (X : 'M[C]_(n.+1 + n.+1)).
Definition pairing_model (m : kmodel2) : kmodel :=
  construct ko (fun k : [eqType of key] => k) [seq (den ko kv.1, upper_right kv.2 : mat) | kv <- mdata m] [::] default_mom.

Variable ns : forall N, seq 'rV[F]_N -> seq 'rV[F]_N.
Variable pretty : seq kmodel2 -> res (seq kmodel2).

(* 133-183.  [nmom] is len(momenta).  zip stops at the end of phases; a symmetry left without its hole block has the wrong size,
   which constrain_family rejects with an AssertionError (if there is any term at all).
   The first call of continuum_variables (155) only matters through its exception. *)
Definition continuum_pairing (symmetries : seq (symmetry F d n)) (total_power : nat + seq nat) all_powers (nmom : nat)
    (phases : option (seq C)) (ph_square : int) (prettify : bool) : res (seq kmodel) :=
  if ph_square \notin [:: -1; 1] then Err ValueError else
  let phases := if phases is Some p then p else nseq (size symmetries) 1 in
  if symmetries is s0 :: _ then
    if ~~ sym_has_U s0 then Err AttributeError else
    do ext <- mapM (fun sp => extend sp.1 sp.2) (zip symmetries phases);
    do _ <- continuum_variables F d pone 0 all_powers (minn d nmom);
    if (size phases < size symmetries)%N then Err AssertionError else
    do family <- all_degrees pone mom (sym_apply pone pc (Mom := Mom) (n := n2)) (@is_discrete F d n2) (@sym_has_U F d n2)
      ns pretty pairing_basis (rcons ext (ph_operator ph_square)) total_power all_powers (minn d nmom) prettify;
    Ok [seq m <- [seq pairing_model m | m <- family] | ~~ nilp (mdata m)]
  else Err IndexError.
End Pairing.
