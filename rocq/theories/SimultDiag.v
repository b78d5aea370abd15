(* linalg.py: simult_diag (285-385), with checks=0 and exact comparisons *)
From mathcomp Require Import all_ssreflect all_algebra.
From mathcomp Require Import complex.
From Verif Require Import Prelude Tolerance PropTol SymBlocks.

Set Implicit Arguments.
Unset Strict Implicit.
Unset Printing Implicit Defensive.
Import GRing.Theory Num.Theory.
Local Open Scope ring_scope.

Section SimultDiag.
Variables (F : rcfType) (tol : F).
Local Notation C := F[i].
(* la.eigh, la.eig, the first component of la.qr, the labels returned by connected_components, np.argsort *)
Variables (eigh : forall n, 'M[C]_n -> seq F * 'M[C]_n) (eig : forall n, 'M[C]_n -> seq C * 'M[C]_n).
Variables (qr : forall n, 'M[C]_n -> 'M[C]_n) (components : forall n, rel 'I_n -> seq nat) (argsort : seq nat -> seq nat).

(* U[:, order], 345 *)
Definition perm_cols n (order : seq nat) (U : 'M[C]_n) : 'M[C]_n :=
  \matrix_(x, y) (if insub (nth 0%N order y) is Some z then U x z else 0).
(* cdist(evvec, evvec) < tol/len(H), 339 *)
Definition con n (evals : seq C) : rel 'I_n := fun x y => cabs (evals`_x - evals`_y) < tol / n%:R.
(* grouped_diag, 323-352 *)
Definition grouped_diag n (H : 'M[C]_n) : res (seq C * 'M[C]_n) :=
  if H == dag H then let: (evals, U) := eigh H in Ok ([seq real_complex F x | x <- evals], U)
  else if H *m dag H != dag H *m H then Err ValueError
  else let: (evals, U) := eig H in
       let order := argsort (components (@con n evals)) in
       Ok ([seq evals`_x | x <- order], qr (perm_cols order U)).

(* U[:, b:e] and M[b:e, b:e] *)
Definition col_slice n (be : nat * nat) (U : 'M[C]_n) : 'M[C]_(n, be.2 - be.1) :=
  \matrix_(x, y) (if insub (be.1 + y)%N is Some z then U x z else 0).
Definition block_slice n (be : nat * nat) (M : 'M[C]_n) : 'M[C]_(be.2 - be.1) :=
  \matrix_(x, y) (if insub (be.1 + x)%N is Some u then if insub (be.1 + y)%N is Some v then M u v else 0 else 0).

(* a rectangular matrix with n rows *)
Definition rect n := {p : nat & 'M[C]_(n, p)}.
Definition mkr n p (P : 'M[C]_(n, p)) : rect n := existT (fun p => 'M[C]_(n, p)) p P.
Fixpoint map_res (T U : Type) (f : T -> res U) (s : seq T) : res (seq U) :=
  if s is x :: s' then do y <- f x; do ys <- map_res f s'; Ok (y :: ys) else Ok [::].

(* 355-385; every call drops one matrix, so the number of matrices bounds the depth *)
Fixpoint simult_rec (k n : nat) (mats : seq 'M[C]_n) : res (seq (rect n)) :=
  match k, mats with
  | k'.+1, H :: rest =>
    if n == 1%N then Ok [:: mkr 1%:M] else
    do EU <- grouped_diag H;
    do ind <- split_list (@cabs F) tol EU.1;
    if rest is [::] then Ok [seq mkr (col_slice be EU.2) | be <- ind] else
    if ~~ all (fun M => H *m M == M *m H) rest then Err ValueError else
    do Ps <- map_res (fun be =>
      do Q <- simult_rec k' [seq block_slice be (dag EU.2 *m M *m EU.2) | M <- rest];
      Ok [seq mkr (col_slice be EU.2 *m tagged P) | P <- Q]) ind;
    Ok (flatten Ps)
  | _, _ => Err IndexError
  end.
Definition simult_diag n (mats : seq 'M[C]_n) : res (seq (rect n)) := simult_rec (size mats) mats.
End SimultDiag.
