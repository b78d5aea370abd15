(* symmetry_finder.py: the arrays returned by _reduce_hamiltonian as input of conserved_quantities and _find_unitary;
   the library calls of _find_unitary_blocks (554-570) *)
From mathcomp Require Import all_ssreflect all_algebra.
From mathcomp Require Import complex.
From Verif Require Import Prelude LinSpan Linalg SymBlocks SimultDiag Sun.

Set Implicit Arguments.
Unset Strict Implicit.
Unset Printing Implicit Defensive.
Import GRing.Theory.
Local Open Scope ring_scope.

Section Arrays.
Variables (F : rcfType) (N : nat) (Ps : seq (stack F N.+1)).
Local Notation C := F[i].
(* Ps[i], Ps[i].shape = (pd i, N.+1, (pn i).+1) and Ps[i][a]; conform_mx only changes the type of the array *)
Definition parr (i : 'I_(size Ps)) : stack F N.+1 := nth (mks ([::] : seq 'M[C]_(N.+1, 0))) Ps i.
Definition pd (i : 'I_(size Ps)) : nat := size (tagged (parr i)).
Definition pn (i : 'I_(size Ps)) : nat := (tag (parr i)).-1.
Definition pP (i : 'I_(size Ps)) (a : nat) : 'M[C]_(N.+1, (pn i).+1) := conform_mx 0 (tagged (parr i))`_a.
End Arrays.

Section FindBlocks.
Variables (F : rcfType) (k : nat) (n : 'I_k -> nat) (m : nat).
Local Notation C := F[i].
Variables (HLs HRs : forall i : 'I_k, 'I_m -> 'M[C]_((n i).+1)).
Variables (eigh : forall n, 'M[C]_n -> seq F * 'M[C]_n).
Variables (nsR : forall N, seq 'rV[F]_N -> seq 'rV[F]_N) (nsC : forall N, seq 'rV[C]_N -> seq 'rV[C]_N).
(* 571: solve_mat_eqn(HLs[j], HRs[i], hermitian=False, traceless=False, k_max=2); k_max has no effect with sparse=False.
   Only called for n i = n j. *)
Definition solve_block (i j : 'I_k) : seq 'M[C]_((n i).+1, (n j).+1) :=
  match solve_mat_eqn nsR nsC [seq conform_mx (0 : 'M[C]_((n i).+1)) (HLs j t) | t <- enum 'I_m] [seq HRs i t | t <- enum 'I_m]
    false false (nseq m false) with
  | Ok Xs => [seq conform_mx 0 X | X <- Xs]
  | Err _ => [::]
  end.
(* 554-556, 567-569 with exact comparison *)
Definition equal_evs (j i : 'I_k) : bool := [forall t, (eigh (HLs j t)).1 == (eigh (HRs i t)).1].
End FindBlocks.

Section Find.
Variables (F : rcfType) (N : nat).
Local Notation C := F[i].
Variables (eigh : forall n, 'M[C]_n -> seq F * 'M[C]_n).
Variables (nsR : forall N, seq 'rV[F]_N -> seq 'rV[F]_N) (nsC : forall N, seq 'rV[C]_N -> seq 'rV[C]_N).
(* _find_unitary, 461-533 without `checks`, after the comparison of the keys *)
Definition find_unitary_in (Ps : seq (stack F N.+1)) m (HL HR : 'I_m -> 'M[C]_N.+1) (conjugate squares_to_1 : bool) :
    res (option 'M[C]_N.+1) :=
  let HLs := red_L (@pP F N Ps) HL conjugate in
  let HRs := red_R (@pP F N Ps) HR in
  find_unitary (@pd F N Ps) (@pP F N Ps) HL HR conjugate squares_to_1 (solve_block HLs HRs nsR nsC) (equal_evs HLs HRs eigh).
(* symmetries, 79-80: the conserved quantities, without prettify *)
Definition onsite_symmetries (Ps : seq (stack F N.+1)) : seq 'M[C]_N.+1 := conserved_quantities (@pd F N Ps) (@pP F N Ps).
End Find.
