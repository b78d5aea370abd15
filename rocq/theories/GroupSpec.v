(* Vocabulary in which the group properties C04-C08 are stated; independent of
   the algorithms in GroupGen.v. *)
From mathcomp Require Import all_ssreflect.
From Verif Require Import Prelude PySet GroupGenProofs.

Set Implicit Arguments.
Unset Strict Implicit.
Unset Printing Implicit Defensive.

Section Spec.
Variables (T : Type) (eqb : rel T) (mul : T -> T -> T).

(* An associative multiplication with a decidable equality that is a congruence. *)
Record semigroup_laws : Prop := SemigroupLaws {
  sl_refl : reflexive eqb;
  sl_sym : symmetric eqb;
  sl_trans : transitive eqb;
  sl_mul : forall x x' y y', eqb x x' -> eqb y y' -> eqb (mul x y) (mul x' y');
  sl_mulA : forall x y z, mul x (mul y z) = mul (mul x y) z }.

Variables (e : T) (inv : T -> T).
Record group_laws : Prop := GroupLaws {
  gl_sl : semigroup_laws;
  gl_mul1 : forall x, eqb (mul e x) x;
  gl_mulV : forall x, eqb (mul (inv x) x) e }.

(* [ord s] enumerates the members of the set s in some order *)
Definition enumeration (ord : seq T -> seq T) : Prop :=
  forall s x, List.In x (ord s) <-> List.In x s.

(* x belongs to the Python set s *)
Definition inset (s : seq T) (x : T) : Prop := exists2 y, List.In y s & eqb x y.

(* x equals the value of a non-empty product of members of w *)
Definition is_product (w : seq T) (x : T) : Prop :=
  exists2 y, gen_by mul (fun z => List.In z w) y & eqb x y.

Definition closed (s : seq T) : Prop := forall a b, inset s a -> inset s b -> inset s (mul a b).
Definition included (s t : seq T) : Prop := forall x, inset s x -> inset t x.
Definition same_set (s t : seq T) : Prop := forall x, inset s x <-> inset t x.

(* no two members at different positions are equal *)
Fixpoint no_repeats (s : seq T) : Prop :=
  if s is x :: s' then ~ inset s' x /\ no_repeats s' else True.

(* H is (the list of elements of) a subgroup of G *)
Definition subgroup (H G : seq T) : Prop :=
  [/\ included H G, inset H e, closed H & forall x, inset H x -> inset H (inv x)].

Lemma insetP s x : reflect (inset s x) (set_mem eqb s x).
Proof. by apply: (iffP (set_memP _ _ _)). Qed.

Lemma no_repeatsP s : set_wf eqb s -> no_repeats s.
Proof. by elim: s => //= x s IH /andP[/insetP ? /IH]. Qed.
End Spec.
