(* symmetry_finder.py: assembling a unitary from blocks (461-653), conserved quantities (328-368) *)
From mathcomp Require Import all_ssreflect all_algebra.
From mathcomp Require Import complex.
From Verif Require Import Prelude Tolerance PropTol Linalg.

Set Implicit Arguments.
Unset Strict Implicit.
Unset Printing Implicit Defensive.
Import Order.TTheory GRing.Theory Num.Theory.
Local Open Scope ring_scope.

(* itertools.combinations(s, n) *)
Fixpoint combinations (T : Type) (s : seq T) (n : nat) : seq (seq T) :=
  match n, s with
  | 0, _ => [:: [::]]
  | n'.+1, [::] => [::]
  | n'.+1, x :: s' => [seq x :: c | c <- combinations s' n'] ++ combinations s' n
  end.

Section Blocks.
Variable F : rcfType.
Local Notation C := F[i].
Definition conjM m k (A : 'M[C]_(m, k)) : 'M[C]_(m, k) := map_mx conjc A.
Definition dag m k (A : 'M[C]_(m, k)) : 'M[C]_(k, m) := conjM A^T.
(* prop_to_id with exact comparison *)
Definition pti m (A : 'M[C]_m.+1) : bool * C := prop_to_id (@cabs F) 0 0 A.

(* Ps: k projectors; Ps[i] is an array of shape (d i, N.+1, (n i).+1), [P i a] is Ps[i][a] for a < d i *)
Variables (N k : nat) (n d : 'I_k -> nat) (P : forall i : 'I_k, nat -> 'M[C]_(N.+1, (n i).+1)).
(* block_dict: a dict with keys (i, j) and values of shape (n i, n j) *)
Definition entry := {ij : 'I_k * 'I_k & 'M[C]_((n ij.1).+1, (n ij.2).+1)}.
Definition mk (i j : 'I_k) (B : 'M[C]_((n i).+1, (n j).+1)) : entry :=
  existT (fun ij : 'I_k * 'I_k => 'M[C]_((n ij.1).+1, (n ij.2).+1)) (i, j) B.
Definition dset (l : seq entry) (e : entry) : seq entry :=
  if tag e \in [seq tag x | x <- l] then [seq (if tag x == tag e then e else x) | x <- l] else rcons l e.

(* ---- _nice_square, 596-614; np.sqrt of a complex number is the principal square root ---- *)
Definition nice_diag (conjugate : bool) (i : 'I_k) (B : 'M[C]_((n i).+1)) : res 'M[C]_((n i).+1) :=
  if conjugate then
    let: (b, c) := pti (B *m conjM B) in
    if b && ((c == 1) || (c == -1)) then Ok B else Err AssertionError
  else
    let: (b, c) := pti (B *m B) in
    if b && (`|c| == 1) then Ok ((sqrtc c)^-1 *: B) else Err AssertionError.
Definition nice_off (conjugate : bool) (i j : 'I_k) (B : 'M[C]_((n i).+1, (n j).+1)) : 'M[C]_((n j).+1, (n i).+1) :=
  if conjugate then B^T else dag B.

(* ---- _find_unitary_blocks, 536-593.  The Hamiltonian families have m members; [solve i j] is the result of
   solve_mat_eqn(HLs[j], HRs[i], k_max=2), [evs j i] the comparison of the eigenvalues of HLs[j] and HRs[i];
   np.isclose(det, 0) is the failure of invertibility, all comparisons are exact.  ---- *)
Section Find.
Variables (m : nat) (HLs HRs : forall i : 'I_k, 'I_m -> 'M[C]_((n i).+1)).
Variables (solve : forall i j : 'I_k, seq 'M[C]_((n i).+1, (n j).+1)) (evs : 'I_k -> 'I_k -> bool).
Variables (squares_to_1 conjugate ev_test : bool).
(* 570-589 *)
Definition find_block (i j : 'I_k) : res (option 'M[C]_((n i).+1, (n j).+1)) :=
  match solve i j with
  | [::] => Ok None
  | B :: rest =>
    let B := sqrtc (n j).+1%:R *: B in
    if ~~ nilp rest || ~~ row_free B then Err ValueError else
    if ~~ [forall t, B *m HLs j t == HRs i t *m B] then Err AssertionError else
    let: (b, c) := pti (B *m dag B) in
    if b && (complex.Im c == 0) && (0 < complex.Re c) then Ok (Some ((sqrtc c)^-1 *: B)) else Err AssertionError
  end.
(* the body of the loop over (i, j), 559-592 *)
Definition block_step (bd : seq entry) (ij : 'I_k * 'I_k) : res (seq entry) :=
  let: (i, j) := ij in
  if squares_to_1 && (i < j)%N then Ok bd else
  if (d i != d j) || (n i != n j) then Ok bd else
  if ev_test && ~~ evs j i then Ok bd else
  if i == j then
    do B <- find_block i i;
    if B is Some B then
      if squares_to_1 then do B' <- nice_diag conjugate B; Ok (dset (dset bd (mk B')) (mk B'))
      else Ok (dset bd (mk B))
    else Ok bd
  else
    do B <- find_block i j;
    if B is Some B then
      if squares_to_1 then Ok (dset (dset bd (mk B)) (mk (nice_off conjugate B)))
      else Ok (dset bd (mk B))
    else Ok bd.
Fixpoint block_loop (bd : seq entry) (ijs : seq ('I_k * 'I_k)) : res (seq entry) :=
  if ijs is ij :: ijs' then do bd' <- block_step bd ij; block_loop bd' ijs' else Ok bd.
(* it.product(ind, ind) *)
Definition pairs : seq ('I_k * 'I_k) := [seq (i, j) | i <- enum 'I_k, j <- enum 'I_k].
Definition find_unitary_blocks : res (seq entry) := block_loop [::] pairs.
End Find.

(* ---- _construct_unitary, 617-653 ---- *)
Definition embed (conjugate : bool) (e : entry) : 'M[C]_N.+1 :=
  let: existT (i, j) B := e in
  \sum_(0 <= a < d i) (P i a *m B *m (if conjugate then (P j a)^T else dag (P j a))).
Definition key_matrix (perm : seq entry) : 'M[int]_k := \matrix_(i, j) ((i, j) \in [seq tag e | e <- perm])%:R.
Fixpoint construct_loop (conjugate squares_to_1 : bool) (perms : seq (seq entry)) : res (option 'M[C]_N.+1) :=
  match perms with
  | [::] => Ok None
  | perm :: perms' =>
    let M := key_matrix perm in
    if M *m M^T != 1%:M then construct_loop conjugate squares_to_1 perms' else
    if squares_to_1 && (M != M^T) then construct_loop conjugate squares_to_1 perms' else
    let S := \sum_(e <- perm) embed conjugate e in
    if (pti (S *m dag S)).1 then Ok (Some S) else Err AssertionError
  end.
Definition construct_unitary (conjugate squares_to_1 : bool) (bd : seq entry) : res (option 'M[C]_N.+1) :=
  construct_loop conjugate squares_to_1 (combinations bd k).

(* ---- _find_unitary, 461-533 without `checks`, after the comparison of the keys: HL and HR are the coefficients
   of the transformed and the original model ---- *)
Section FindUnitary.
Variables (m : nat) (HL HR : 'I_m -> 'M[C]_N.+1) (conjugate squares_to_1 : bool).
Definition PL (i : 'I_k) (a : nat) := if conjugate then conjM (P i a) else P i a.
Definition red_R (i : 'I_k) (t : 'I_m) : 'M[C]_((n i).+1) := dag (P i 0) *m HR t *m P i 0.
Definition red_L (i : 'I_k) (t : 'I_m) : 'M[C]_((n i).+1) := dag (PL i 0) *m HL t *m PL i 0.
Definition hermitian_test : bool := [forall t, (HR t == dag (HR t)) && (HL t == dag (HL t))].
Definition find_unitary (solve : forall i j : 'I_k, seq 'M[C]_((n i).+1, (n j).+1)) (evs : 'I_k -> 'I_k -> bool) :
    res (option 'M[C]_N.+1) :=
  do bd <- find_unitary_blocks red_L red_R solve evs squares_to_1 conjugate hermitian_test;
  construct_unitary conjugate squares_to_1 bd.
End FindUnitary.

(* ---- conserved_quantities, 328-368, without prettify ---- *)
Definition quantity (i : 'I_k) (l : 'M[C]_(d i)) : 'M[C]_N.+1 :=
  let L := \sum_(a < d i) \sum_(b < d i) l a b *: (P i a *m dag (P i b)) in
  L - (\tr L / N.+1%:R) *: 1%:M.
Definition conserved_quantities : seq 'M[C]_N.+1 :=
  flatten [seq [seq quantity l | l <- @matrix_basis F (d i) (i == 0%N :> nat) false false] | i <- enum 'I_k].
End Blocks.
