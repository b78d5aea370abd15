(* The commutators of the real matrices listed in L_matrices (qsymm/groups.py:1197-1237). *)
From mathcomp Require Import all_ssreflect all_algebra.
From Verif Require Import RingTac.

Set Implicit Arguments.
Unset Strict Implicit.
Unset Printing Implicit Defensive.
Import GRing.Theory.
Local Open Scope ring_scope.

(* real generators of rotations *)
Definition rotation_algebra (K : ringType) n (X Y Z : 'M[K]_n) (c : nat) :=
  [/\ [/\ X^T = - X, Y^T = - Y & Z^T = - Z],
      [/\ X *m Y - Y *m X = Z, Y *m Z - Z *m Y = X & Z *m X - X *m Z = Y] &
      - (X *m X + Y *m Y + Z *m Z) = c%:R%:M].

Section Lists.
Variable K : comRingType.
Add Ring Kr : (R_ring K).
Definition list_mx n (rows : seq (seq K)) : 'M[K]_n := \matrix_(i, j) nth 0 (nth [::] rows i) j.
Definition list1 (a : 'I_3) := list_mx 3 (nth [::] [::
   [:: [:: 0; 0; 0]; [:: 0; 0; -1]; [:: 0; 1; 0]];
   [:: [:: 0; 0; 1]; [:: 0; 0; 0]; [:: -1; 0; 0]];
   [:: [:: 0; -1; 0]; [:: 1; 0; 0]; [:: 0; 0; 0]]] a).
Variable s3 : K.
Hypothesis s33 : s3 * s3 = 3%:R.
Definition list2 (a : 'I_3) := list_mx 5 (nth [::] [::
   [:: [:: 0; 0; 0; -1; 0]; [:: 0; 0; 0; - s3; 0]; [:: 0; 0; 0; 0; 1]; [:: 1; s3; 0; 0; 0]; [:: 0; 0; -1; 0; 0]];
   [:: [:: 0; 0; 0; 0; -1]; [:: 0; 0; 0; 0; s3]; [:: 0; 0; 0; -1; 0]; [:: 0; 0; 1; 0; 0]; [:: 1; - s3; 0; 0; 0]];
   [:: [:: 0; 0; -2%:R; 0; 0]; [:: 0; 0; 0; 0; 0]; [:: 2%:R; 0; 0; 0; 0]; [:: 0; 0; 0; 0; 1]; [:: 0; 0; 0; -1; 0]]] a).

Lemma list1_algebra : rotation_algebra (list1 0) (list1 1) (list1 2) 2.
Proof.
split; first split; try split; apply/matrixP => i j; rewrite !mxE ?big_ord_recl ?big_ord0 ?mxE;
  case: i => [[|[|[|//]]] ?]; case: j => [[|[|[|//]]] ?] /=;
  rewrite ?(mulr0, mul0r, add0r, addr0, oppr0, subr0, mulrN, mulNr, opprK, mulr1, mul1r) //; ringm K.
Qed.
Lemma list2_algebra : rotation_algebra (list2 0) (list2 1) (list2 2) 6.
Proof.
split; first split; try split; apply/matrixP => i j; rewrite !mxE ?big_ord_recl ?big_ord0 ?mxE;
  case: i => [[|[|[|[|[|//]]]]] ?]; case: j => [[|[|[|[|[|//]]]]] ?] /=;
  rewrite ?(mulr0, mul0r, add0r, addr0, oppr0, subr0, mulrN, mulNr, opprK, mulr1, mul1r, s33) //; ringm K.
Qed.
End Lists.
