(* The ring and field tactics of the standard library for the algebraic structures of
   Mathematical Components.  Inside a section with a variable R : comRingType, declare
     Add Ring Rr : (R_ring R).
   and use [ringm]; for a fieldType F declare Add Field Ff : (F_field F). and use
   [fieldm]. *)
From mathcomp Require Import all_ssreflect all_algebra.
From Coq Require Export Ring Field.
Set Implicit Arguments.
Unset Strict Implicit.
Unset Printing Implicit Defensive.
Import GRing.Theory.
Local Open Scope ring_scope.

Section Ring.
Variable R : ringType.
Definition r_add (x y : R) : R := x + y.
Definition r_opp (x : R) : R := - x.
Definition r_mul (x y : R) : R := x * y.
Definition r_sub (x y : R) : R := r_add x (r_opp y).
Definition r_zero : R := 0.
Definition r_one : R := 1.
End Ring.

Lemma R_ring (R : comRingType) :
  @ring_theory (GRing.Ring.sort (GRing.ComRing.ringType R)) (@r_zero _) (@r_one _) (@r_add _) (@r_mul _) (@r_sub _) (@r_opp _) eq.
Proof.
by split=> //; [exact: add0r|exact: addrC|exact: addrA|exact: mul1r|exact: mulrC|exact: mulrA|exact: mulrDl|exact: addrN].
Qed.

Definition r_inv (R : unitRingType) (x : GRing.Ring.sort (GRing.UnitRing.ringType R)) : GRing.Ring.sort (GRing.UnitRing.ringType R) := x^-1.
Definition r_div (R : unitRingType) (x y : GRing.Ring.sort (GRing.UnitRing.ringType R)) := r_mul x (r_inv y).

Lemma F_field (F : fieldType) :
  @field_theory (GRing.Ring.sort (GRing.Field.ringType F)) (@r_zero _) (@r_one _) (@r_add _) (@r_mul _) (@r_sub _) (@r_opp _)
   (@r_div (GRing.Field.unitRingType F)) (@r_inv (GRing.Field.unitRingType F)) eq.
Proof.
split=> //; first exact: (R_ring (GRing.Field.comRingType F)).
  by apply/eqP; rewrite /r_one /r_zero oner_eq0.
by move=> x /eqP x0; rewrite /r_mul /r_inv mulVf.
Qed.

Ltac r_norm R U :=
  rewrite ?(expr2, exprS, expr0, natrD, natrM, mulrS, mulr0n, addr0);
  repeat match goal with
  | |- context [@GRing.add ?a ?x ?y] => change (@GRing.add a x y) with (@r_add R x y)
  | |- context [@GRing.opp ?a ?x] => change (@GRing.opp a x) with (@r_opp R x)
  | |- context [@GRing.mul ?a ?x ?y] => change (@GRing.mul a x y) with (@r_mul R x y)
  | |- context [@GRing.inv ?a ?x] => change (@GRing.inv a x) with (@r_inv U x)
  | |- context [@GRing.zero ?a] => change (@GRing.zero a) with (@r_zero R)
  | |- context [@GRing.one ?a] => change (@GRing.one a) with (@r_one R)
  end;
  match goal with |- @eq _ ?x ?y => change (@eq (GRing.Ring.sort R) x y) end.

(* R : comRingType *)
Ltac ringm R := r_norm (GRing.ComRing.ringType R) R; ring.
(* F : fieldType; leaves the side conditions that denominators do not vanish *)
Ltac fieldm F := r_norm (GRing.Field.ringType F) (GRing.Field.unitRingType F); field;
  rewrite /r_zero /r_one /r_add /r_mul /r_opp.
Ltac fringm F := r_norm (GRing.Field.ringType F) (GRing.Field.unitRingType F); ring.

Section Tests.
Variable R : comRingType.
Add Ring Rr : (R_ring R).
Example ring_test (a b : R) (n : nat) : (a + b) ^+ 2 *+ 2 = (a * a + b ^+ 2 + 2%:R * a * b) *+ 2 + n.+1%:R - (n%:R + 1).
Proof. ringm R. Qed.
Variable F : fieldType.
Add Field Ff : (F_field F).
Example field_test (a b c : F) : c <> 0 -> (a + b) / c * (a - b) = (a * a - b * b) / c.
Proof. by move=> h; fieldm F. Qed.
End Tests.
