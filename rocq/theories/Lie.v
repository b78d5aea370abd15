(* symmetry_finder.py: structure constants, Killing form, Casimir operator and centre (107-167) *)
From mathcomp Require Import all_ssreflect all_algebra.
From mathcomp Require Import complex.
From Verif Require Import Prelude Star Nullspace.

Set Implicit Arguments.
Unset Strict Implicit.
Unset Printing Implicit Defensive.
Import GRing.Theory.
Local Open Scope ring_scope.

Section Lie.
Variables (K : fieldType) (m N : nat).
(* linalg.py:13-14 *)
Definition commutator (A B : 'M[K]_N) : 'M[K]_N := A *m B - B *m A.
(* gens: array of shape (m, N, N) *)
Variable gens : 'I_m -> 'M[K]_N.
(* scipy.linalg.lstsq(bas, v)[0]: the coefficients of the best approximation of v *)
Variable lsq : 'M[K]_(N * N, m) -> 'cV[K]_(N * N) -> 'cV[K]_m.

(* np.array([L.flatten() for L in gens]).T, 117 *)
Definition bas : 'M[K]_(N * N, m) := \matrix_(x, a) mxvec (gens a) 0 x.
Definition flat (A : 'M[K]_N) : 'cV[K]_(N * N) := (mxvec A)^T.
(* 110-115.  lstsq returns the residual only if there are more equations than unknowns and the columns are
   independent; otherwise it returns an empty array and the test is vacuous.  Exact comparison. *)
Definition outside (v : 'cV[K]_(N * N)) : bool :=
  [&& (m < N * N)%N, \rank bas == m & bas *m lsq bas v != v].
(* 118-124; all errors are the same, so the order of evaluation does not matter *)
Definition struct_const : res ('I_m -> 'I_m -> 'I_m -> K) :=
  if [exists a, exists b, outside (flat (commutator (gens a) (gens b)))] then Err ValueError
  else Ok (fun a b c => lsq bas (flat (commutator (gens a) (gens b))) c 0).
(* 129-133, 'ade,bed->ab' *)
Definition killing : res 'M[K]_m :=
  do C <- struct_const; Ok (\matrix_(a, b) \sum_d \sum_e C a d e * C b e d).
(* 136-144, 'ab,aik,bkj->ij' *)
Definition casimir : res 'M[K]_N :=
  do g <- killing;
  if g \notin unitmx then Err ValueError
  else Ok (\sum_a \sum_b invmx g a b *: (gens a *m gens b)).
(* np.tensordot(c, gens, axes=(1, 0)), one row of c *)
Definition lincomb (v : 'rV[K]_m) : 'M[K]_N := \sum_b v 0 b *: gens b.
End Lie.

(* 147-167; [svd g] are the singular values and the right singular vectors of g *)
Section Separate.
Variables (F : rcfType) (m N : nat) (gens : 'I_m -> 'M[F[i]]_N).
Variable lsq : 'M[F[i]]_(N * N, m) -> 'cV[F[i]]_(N * N) -> 'cV[F[i]]_m.
Variables (svd : 'M[F[i]]_m -> seq F * 'M[F[i]]_m) (atol : F).
Definition separate_lie_algebra : res (seq 'M[F[i]]_N * seq 'M[F[i]]_N) :=
  do g <- killing gens lsq;
  let: (c, s) := nullspace_dense (complex_star F) (svd g).1 (svd g).2 atol in
  Ok ([seq lincomb gens v | v <- c], [seq lincomb gens v | v <- s]).
End Separate.
