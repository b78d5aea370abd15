(* qsymm/linalg.py: matrix_basis, solve_mat_eqn.
   A numpy array of shape (m, N) is the list of its rows.  Null spaces are taken
   by an oracle [ns]; see Nullspace.v for its implementation. *)
From mathcomp Require Import all_ssreflect all_algebra.
From mathcomp Require Import complex.
From Verif Require Import Prelude PGE LinSpan.

Set Implicit Arguments.
Unset Strict Implicit.
Unset Printing Implicit Defensive.
Import GRing.Theory.
Local Open Scope ring_scope.
Local Open Scope complex_scope.

(* it.combinations(list(range(dim)), 2) *)
Definition combinations2 d : seq ('I_d * 'I_d) :=
  [seq p <- [seq (i, j) | i <- enum 'I_d, j <- enum 'I_d] | ((p : 'I_d * 'I_d).1 < p.2)%N].

Section MatrixBasis.
Variables (F : rcfType) (d : nat).
Local Notation C := F[i].

(* linalg.py:96-136.  [sparse] selects the storage format only.  The assignments
   diag[i, i] = 1 etc. on a zero matrix are written as sums of matrix units; the
   two positions assigned are always different. *)
Definition matrix_basis (traceless antihermitian real : bool) : seq 'M[C]_d :=
  let coeff : C := if antihermitian then 'i else 1 in
  (if real && antihermitian then [::]
   else if traceless then
     [seq coeff *: \matrix_(a, b) (if (a == i) && (b == i) then 1
                                   else if (a == d.-1 :> nat) && (b == d.-1 :> nat) then -1 else 0)
     | i <- filter (fun i : 'I_d => (i < d.-1)%N) (enum 'I_d)]
   else [seq coeff *: delta_mx i i | i <- enum 'I_d]) ++
  flatten [seq
    (if ~~ (real && antihermitian) then [:: coeff *: (delta_mx p.1 p.2 + delta_mx p.2 p.1)] else [::]) ++
    (if ~~ (real && ~~ antihermitian) then
       [:: coeff *: ('i *: delta_mx p.1 p.2 - 'i *: delta_mx p.2 p.1)] else [::])
  | p <- combinations2 d].
End MatrixBasis.
Arguments matrix_basis {F} d.

Section SolveMatEqn.
Variables (F : rcfType).
Local Notation C := F[i].
(* nullspace(A): the rows of a basis, for real and for complex arrays *)
Variable nsR : forall N : nat, seq 'rV[F]_N -> seq 'rV[F]_N.
Variable nsC : forall N : nat, seq 'rV[C]_N -> seq 'rV[C]_N.

Section Dim.
Variable d : nat.
Implicit Types (HL HR : seq 'M[C]_d).

(* mat @ hL - hR @ mat.conj() or mat @ hL - hR @ mat, linalg.py:464-467 *)
Definition eqn_side (cj : bool) (hL hR X : 'M[C]_d) : 'M[C]_d :=
  X *m hL - hR *m (if cj then mxconj X else X).

(* the rows of bmat([[flatten(...) for mat in basis()]]), row major, 461-470 *)
Definition eqn_rows (B : seq 'M[C]_d) (eqn : bool * ('M[C]_d * 'M[C]_d)) : seq 'rV[C]_(size B) :=
  [seq \row_j eqn_side eqn.1 eqn.2.1 eqn.2.2 B`_j a b | a <- enum 'I_d, b <- enum 'I_d].
Definition null_mat B (eqns : seq (bool * ('M[C]_d * 'M[C]_d))) : seq 'rV[C]_(size B) :=
  flatten [seq eqn_rows B eqn | eqn <- eqns].

(* vstack((null_mat.real, null_mat.imag)), 475 *)
Definition real_imag N (A : seq 'rV[C]_N) : seq 'rV[F]_N :=
  [seq map_mx (@complex.Re F) r | r <- A] ++ [seq map_mx (@complex.Im F) r | r <- A].

(* linalg.py:428-486 for a list HL of d x d matrices.  An empty HL fails at HL[0]
   (428, 442); d = 0 with traceless=False returns no matrices (445-446), d = 0 with
   traceless=True is not modelled (numpy rejects the empty blocks).  conjugate is a
   list of Booleans; conjugate=b stands for [nseq (size HL) b] (437-438). *)
Definition solve_mat_eqn (HL HR : seq 'M[C]_d) (hermitian traceless : bool) (conjugate : seq bool) :
    res (seq 'M[C]_d) :=
  if HL is [::] then Err IndexError
  else if size HL != size HR then Err ValueError
  else if size conjugate != size HL then Err ValueError
  else
    let N := (d * d - traceless)%N in
    if N == 0%N then Ok [::]
    else
      let B := matrix_basis d traceless false false in
      let A := null_mat B (zip conjugate (zip HL HR)) in
      if hermitian then
        Ok [seq combr [rmorphism of real_complex F] B v | v <- nsR (real_imag A)]
      else Ok [seq combr [rmorphism of idfun] B v | v <- nsC A].
End Dim.
End SolveMatEqn.
