(* Model of remove_duplicates (493-517), subtract_family (520-561) and
   make_basis_pretty (460-490) of qsymm/hamiltonian_generator.py.
   Arithmetic is exact; [cs] is the second result of
   nullspace(..., return_complement=True), [rref] is linalg.rref with return_S=True.
   A list of rows stands for a two-dimensional array. *)
From mathcomp Require Import all_ssreflect all_algebra.
From mathcomp Require Import complex.
From Verif Require Import Prelude ModelCore Family Complement.

Set Implicit Arguments.
Unset Strict Implicit.
Unset Printing Implicit Defensive.
Import GRing.Theory Num.Theory.
Local Open Scope ring_scope.

Section Tools.
Variables (F : rcfType) (n1 n2 : nat) (K : eqType) (kone : K) (Mom : eqType).
Local Notation C := F[i].
Local Notation V := [lmodType C of 'M[C]_(n1, n2)].
Local Notation model := (model K Mom V).
Variable cs : forall N, seq 'rV[F]_N -> seq 'rV[F]_N.

(* [sum([family[i] * c for i, c in enumerate(vec)]) for vec in vecs] *)
Definition combine_all (family : seq model) (vecs : seq 'rV[F]_(size family)) : res (seq model) :=
  mapM (fun v => combine kone family (rowseq v)) vecs.

(* 508-517 *)
Definition remove_duplicates (family : seq model) : res (seq model) :=
  if nilp family then Ok family
  else
    do basis_vectors <- family_to_vectors kone family None;
    combine_all (cs (transpose (size family) basis_vectors)).

(* rows of length L, and the transpose of an array given by its rows *)
Definition as_rows L (vs : seq (seq F)) : seq 'rV[F]_L := [seq \row_(t < L) v`_t | v <- vs].
Definition columns N L (P : seq 'rV[F]_L) : seq 'rV[F]_N := [seq \row_(j < N) P`_j 0 t | t <- enum 'I_L].

(* 537-558; line 554 compares the projection on the span of family1 *)
Definition subtract_family (family1 family2 : seq model) : res (seq model) :=
  if nilp family1 || nilp family2 then Ok family1
  else
    let all_keys := undup (family_keys kone family1 ++ family_keys kone family2) in
    do basis1 <- family_to_vectors kone family1 (Some all_keys);
    do basis2 <- family_to_vectors kone family2 (Some all_keys);
    let L := size (head [::] basis1) in
    let basis1 := as_rows L basis1 in
    let basis2 := cs (as_rows L basis2) in
    let projected := [seq b - project basis2 b | b <- basis1] in
    let ort := cs basis1 in
    if ~~ all (fun p => project ort p == p) projected then Err ValueError
    else combine_all (cs (columns (size family1) projected)).

(* 477-490.  [rref m] is the transformation S, or an error: for a matrix close to
   zero rref returns no S and the unpacking in line 481 fails (C30).
   [rnd] is round_family. *)
Definition make_basis_pretty (rref : forall m n, 'M[F]_(m, n) -> res 'M[F]_m) (rnd : seq model -> seq model)
    (family : seq model) : res (seq model) :=
  if nilp family then Ok family
  else
    do basis_vectors <- family_to_vectors kone family None;
    do S <- rref _ _ (\matrix_(i < size family, j < size (head [::] basis_vectors)) (nth [::] basis_vectors i)`_j);
    do terms <- combine_all [seq row i S | i <- enum 'I_(size family)];
    Ok (rnd [seq t <- terms | ~~ nilp (mdata t)]).
End Tools.
