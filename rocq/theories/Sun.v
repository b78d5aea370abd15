(* symmetry_finder.py: symmetry_adapted_sun (169-266, check=False) and _reduce_hamiltonian (272-325) *)
From mathcomp Require Import all_ssreflect all_algebra.
From mathcomp Require Import complex.
From Verif Require Import Prelude Tolerance PropTol Linalg Lie SymBlocks SimultDiag.

Set Implicit Arguments.
Unset Strict Implicit.
Unset Printing Implicit Defensive.
Import GRing.Theory Num.Theory.
Local Open Scope ring_scope.

(* an array of shape (d, N, n): some matrices of the same shape *)
Definition stack (F : rcfType) (N : nat) := {n : nat & seq 'M[F[i]]_(N, n)}.
Definition mks (F : rcfType) N n (s : seq 'M[F[i]]_(N, n)) : stack F N := existT (fun n => seq 'M[F[i]]_(N, n)) n s.

Section Sun.
Variables (F : rcfType) (tol atol : F).
Local Notation C := F[i].
(* la.eigh, and the first and last component of la.svd of a square matrix *)
Variables (eigh : forall n, 'M[C]_n -> seq F * 'M[C]_n) (svd : forall n, 'M[C]_n -> 'M[C]_n * 'M[C]_n).

(* a loop whose body can raise *)
Fixpoint fold_res (S T : Type) (f : S -> T -> res S) (st : S) (s : seq T) : res S :=
  if s is x :: s' then do st' <- f st x; fold_res f st' s' else Ok st.

(* int(np.sqrt(m)) for a perfect square; for other m the square of the result is not m *)
Definition isqrt (m : nat) : nat := find (fun d => m <= d * d)%N (iota 0 m.+1).

Section Dim.
Variable N : nat.
(* U[:, b:e] with e - b = n *)
Definition slice_at n w (b : nat) (U : 'M[C]_w) : 'M[C]_(w, n) :=
  \matrix_(x, y) (if insub (b + y)%N is Some z then U x z else 0).

(* the loop state: unsplit and split *)
Definition sun_state n := (seq (rect F N) * seq 'M[C]_(N, n))%type.
(* 226-234, one block *)
Definition sun_block n (P : rect F N) (U : 'M[C]_(tag P)) (st : sun_state n) (be : nat * nat) : res (sun_state n) :=
  if (be.2 - be.1)%N == n then Ok (st.1, rcons st.2 (tagged P *m slice_at n be.1 U))
  else if ((be.2 - be.1) %% n)%N == 0%N then Ok (rcons st.1 (mkr (tagged P *m col_slice be U)), st.2)
  else Err AssertionError.
(* 220-225, one subspace; split_list with its default tolerance *)
Definition sun_space n (g : 'M[C]_N) (st : sun_state n) (P : rect F N) : res (sun_state n) :=
  let EU := eigh (dag (tagged P) *m g *m tagged P) in
  do blocks <- split_list (@cabs F) tol [seq real_complex F x | x <- EU.1];
  fold_res (sun_block EU.2) st blocks.
(* 215-239, the loop over the generators: unsplit spaces are taken out, split ones are kept *)
Fixpoint sun_split n (gens : seq 'M[C]_N) (st : sun_state n) : res (seq 'M[C]_(N, n)) :=
  if gens is g :: gens' then
    do st' <- fold_res (sun_space g) ([::], st.2) st.1;
    if st'.1 is [::] then Ok st'.2 else sun_split gens' st'
  else Err ValueError.

(* np.allclose(gblock, 0), 251: rtol is multiplied by 0 *)
Definition all_small n (M : 'M[C]_n) : bool := [forall x, forall y, cabs (M x y) <= atol].
(* 244-262, one block *)
Definition sun_fix n (gens : seq 'M[C]_N) (P0 P : 'M[C]_(N, n)) : res 'M[C]_(N, n) :=
  let blocks := [seq B <- [seq dag P0 *m g *m P | g <- gens] | ~~ all_small B] in
  if blocks is B :: _ then let: (u, vh) := svd B in Ok (P *m dag (u *m vh)) else Err ValueError.

(* 196-267.  np.sqrt(len(gens) + 1) and the quotient are taken to be integers exactly when they are; an array
   without rows (N = 0) is not modelled *)
Definition symmetry_adapted_sun (gens : seq 'M[C]_N) : res (stack F N) :=
  let m := (size gens).+1 in
  let d := isqrt m in
  if ~~ ((d * d == m) && (d %| N))%N then Err ValueError else
  let n := (N %/ d)%N in
  if n == 1%N then Ok (mks [seq col i 1%:M | i <- enum 'I_N]) else
  do split <- @sun_split n gens ([:: mkr 1%:M], [::]);
  if split is P0 :: rest then do fixed <- map_res (sun_fix gens P0) rest; Ok (mks (P0 :: fixed))
  else Err IndexError.
End Dim.

(* _reduce_hamiltonian, 295-325; H is a list of N x N matrices, sparse=False *)
Section Reduce.
(* the null space functions of solve_mat_eqn and separate_lie_algebra, and what simult_diag calls *)
Variables (nsR : forall N, seq 'rV[F]_N -> seq 'rV[F]_N) (nsC : forall N, seq 'rV[C]_N -> seq 'rV[C]_N).
Variables (lsq : forall m N, 'M[C]_(N * N, m) -> 'cV[C]_(N * N) -> 'cV[C]_m) (nsvd : forall m, 'M[C]_m -> seq F * 'M[C]_m).
Variables (ntol dtol : F).
Variables (eig : forall n, 'M[C]_n -> seq C * 'M[C]_n) (qr : forall n, 'M[C]_n -> 'M[C]_n).
Variables (components : forall n, rel 'I_n -> seq nat) (argsort : seq nat -> seq nat).

(* solve_mat_eqn(H, hermitian=True, traceless=True) with HR=None, linalg.py:428-432 *)
Definition sym_gens N (H : seq 'M[C]_N) : res (seq 'M[C]_N) :=
  solve_mat_eqn nsR nsC H H true true (nseq (size H) false).
(* 300-306 *)
Definition centre_spaces N (gens : seq 'M[C]_N) : res (seq (rect F N)) :=
  do cs <- separate_lie_algebra (fun a : 'I_(size gens) => gens`_a) (@lsq (size gens) N) (@nsvd (size gens)) ntol;
  if cs.1 is [::] then Ok [:: mkr 1%:M]
  else simult_diag dtol eigh eig qr components argsort cs.1.
(* 310-323, one subspace *)
Definition reduce_space N (H : seq 'M[C]_N) (P : rect F N) : res (stack F N) :=
  do gensr <- sym_gens [seq dag (tagged P) *m h *m tagged P | h <- H];
  do P2s <- (if gensr is [::] then Ok (mks [:: 1%:M]) else symmetry_adapted_sun gensr);
  Ok (mks [seq tagged P *m P2 | P2 <- tagged P2s]).
Definition reduce_hamiltonian N (H : seq 'M[C]_N) : res (seq (stack F N)) :=
  do gens <- sym_gens H;
  if gens is [::] then Ok [:: mks [:: 1%:M]] else
  do Ps <- centre_spaces gens;
  map_res (reduce_space H) Ps.
End Reduce.
End Sun.
