(* qsymm/linalg.py: nullspace (178-274). *)
From mathcomp Require Import all_ssreflect all_algebra.
From Verif Require Import Prelude LinSpan NullSpec Tolerance Star.

Set Implicit Arguments.
Unset Strict Implicit.
Unset Printing Implicit Defensive.
Import Order.Theory GRing.Theory Num.Theory.
Local Open Scope ring_scope.

Section Nullspace.
Variables (F : rcfType) (K : fieldType) (st : star F K).
Local Notation cj := (cj st).
Local Notation emb := (emb st).

(* scipy.linalg.svd(A, full_matrices=True): A = u diag(s) vh *)
Definition diag_rect m n (s : seq F) : 'M[K]_(m, n) :=
  \matrix_(i, j) (if i == j :> nat then emb s`_i else 0).
Definition is_svd m n (A : 'M[K]_(m, n)) (u : 'M[K]_m) (s : seq F) (vh : 'M[K]_n) : Prop :=
  [/\ unitary st u, unitary st vh, size s = minn m n, all (fun x => 0 <= x) s &
      A = u *m diag_rect m n s *m vh].

(* The dense branch, 259-274, after the decomposition; the second component is
   the complement. *)
Definition svd_flags n (s : seq F) (atol : F) : seq bool :=
  [seq np_isclose (fun x : F => `|x|) 0 atol x 0 | x <- s] ++ nseq (n - size s) true.
Definition nullspace_dense n (s : seq F) (vh : 'M[K]_n) (atol : F) : seq 'rV[K]_n * seq 'rV[K]_n :=
  let nnz := svd_flags n s atol in
  (mask nnz (rows (map_mx cj vh)), mask (map negb nnz) (rows (map_mx cj vh))).

(* ---- the sparse branch, 215-258 ---- *)
(* scipy.sparse.linalg.eigsh(H, sigma=-0.1, which='LM', k): k lowest eigenvalues
   of a Hermitian H without negative eigenvalues, with orthonormal eigenvectors.
   [lam] are all eigenvalues in increasing order. *)
Definition is_eigh n (H : 'M[K]_n) (lam : seq F) (V : 'M[K]_n) : Prop :=
  [/\ unitary st V, size lam = n, sorted <=%R lam &
      H *m V = V *m diag_mx (\row_i emb lam`_i)].
Definition cols n (V : 'M[K]_n) : seq 'cV[K]_n := [seq col i V | i <- enum 'I_n].
Definition eigsh_contract n (H : 'M[K]_n) (eigsh : nat -> res (seq F * seq 'cV[K]_n)) : Prop :=
  eigsh 0%N = Err ValueError /\
  forall k, (0 < k < n)%N -> exists lam V,
    is_eigh H lam V /\ eigsh k = Ok (take k lam, take k (cols V)).
(* scipy.linalg.qr(ns, mode='economic')[0] of a matrix with independent columns:
   an orthonormal basis of the same space *)
Definition cdot n (v w : 'cV[K]_n) : K := (adj st v *m w) 0 0.
Definition orthonormal n (X : seq 'cV[K]_n) : Prop :=
  forall i j, (i < size X)%N -> (j < size X)%N -> cdot X`_i X`_j = (i == j)%:R.
Definition qr_contract n (qr : seq 'cV[K]_n -> seq 'cV[K]_n) : Prop :=
  forall X, indep [rmorphism of idfun] X ->
    orthonormal (qr X) /\ forall v, span [rmorphism of idfun] (qr X) v <-> span [rmorphism of idfun] X v.

Section Sparse.
Variables (m n : nat) (A : 'M[K]_(m, n)) (atol : F).
Variables (eigsh : nat -> res (seq F * seq 'cV[K]_n)) (qr : seq 'cV[K]_n -> seq 'cV[K]_n).

(* np.max(np.abs(evals)) > atol, 242 *)
Definition found_large (evals : seq F) : bool := has (fun x => atol < `|x|) evals.

(* The loop of lines 239-250.  k < n - 1 is written k.+1 < n; each round increases
   k, so n rounds are enough. *)
Fixpoint sparse_loop (fuel k_step k : nat) : res (seq F * seq 'cV[K]_n) :=
  if fuel is f.+1 then
    if (k.+1 < n)%N then
      do ev <- eigsh k;
      if found_large ev.1 then Ok ev else sparse_loop f k_step (k_step + k)
    else Err ValueError
  else Err ValueError.

(* Lines 225-258.  For n < 2 the code calls eigsh with k <= 0, which raises
   ValueError; n - 2 is truncated here, with the same result. *)
Definition nullspace_sparse (k_max : int) : res (seq 'rV[K]_n) :=
  if n == 0%N then Err ZeroDivisionError
  else if [forall i, forall j, np_isclose (fun x => Num.sqrt (nsq st x)) 0 (atol / n%:R) (A i j) 0] then
    Ok (rows 1%:M)
  else
    do ev <- (match k_max with
              | Posz 0 => Err ValueError
              | Posz k => eigsh k
              | Negz k => sparse_loop n k.+1 (minn (n - 2) k.+1)
              end);
    let nnz := [seq np_isclose (fun x : F => `|x|) 0 atol x 0 | x <- ev.1] in
    let ns := mask nnz ev.2 in
    let ns' := if (0 < size ns)%N then qr ns else ns in
    Ok [seq v^T | v <- ns'].
End Sparse.
End Nullspace.
