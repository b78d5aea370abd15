(* Shared vocabulary of the model: Python exceptions as values. *)
From mathcomp Require Import all_ssreflect.

Set Implicit Arguments.
Unset Strict Implicit.
Unset Printing Implicit Defensive.

(* The exception classes that the modelled code can raise. *)
Inductive pyerr : Type :=
| ValueError
| AssertionError
| TypeError
| KeyError
| IndexError
| NameError
| AttributeError
| ZeroDivisionError
| StopIteration
| RuntimeError
| NotImplementedError
| LinAlgError.

(* Result of a Python call: a value or an exception. *)
Inductive res (A : Type) : Type :=
| Ok of A
| Err of pyerr.
Arguments Ok {A} _.
Arguments Err {A} _.

Definition bind A B (x : res A) (f : A -> res B) : res B :=
  match x with
  | Ok a => f a
  | Err e => Err e
  end.

Notation "'do' x <- e1 ; e2" := (bind e1 (fun x => e2))
  (at level 200, x name, e1 at level 100, e2 at level 200,
   format "'do'  x  <-  e1 ; '//' e2").

Definition is_ok A (x : res A) : bool := if x is Ok _ then true else false.

Lemma bind_ok A B (x : res A) (f : A -> res B) b :
  bind x f = Ok b -> exists2 a, x = Ok a & f a = Ok b.
Proof. by case: x => //= a fa; exists a. Qed.

(* [In]-membership facts for lists over arbitrary types. *)
Lemma In_map_iff A B (f : A -> B) (s : seq A) y :
  List.In y [seq f x | x <- s] <-> exists2 x, List.In x s & y = f x.
Proof.
elim: s => [|a s IH] /=; first by split=> // -[].
split.
- case=> [<-|H]; first by exists a; [left|].
  by case: (proj1 IH H) => x xs ->; exists x; [right|].
- case=> x [->|xs] E; first by left.
  by right; apply/IH; exists x.
Qed.

Lemma In_cat A (s t : seq A) x :
  List.In x (s ++ t) <-> List.In x s \/ List.In x t.
Proof. by elim: s => [|a s IH] /=; [split=> [|[]] //; right | rewrite IH; tauto]. Qed.

Lemma In_allpairs A B C (f : A -> B -> C) (s : seq A) (t : seq B) z :
  List.In z [seq f x y | x <- s, y <- t] <->
  exists x y, [/\ List.In x s, List.In y t & z = f x y].
Proof.
elim: s => [|a s IH] /=; first by split=> // -[x [y []]].
rewrite In_cat In_map_iff IH.
split.
- case=> [[y yt E]|[x [y [xs yt E]]]].
    by exists a, y; split=> //; left.
  by exists x, y; split=> //; right.
- case=> x [y [[->|xs] yt E]]; first by left; exists y.
  by right; exists x, y.
Qed.

Lemma In_rcons A (s : seq A) x y :
  List.In y (rcons s x) <-> List.In y s \/ y = x.
Proof.
by rewrite -cats1 In_cat /=; split=> [[?|[->|[]]]|[?|->]]; [left|right|left|right; left].
Qed.

Lemma In_filter A (p : pred A) (s : seq A) x :
  List.In x (filter p s) <-> List.In x s /\ p x.
Proof.
elim: s => [|a s IH] /=; first by split=> // -[].
case: ifP => pa /=; rewrite IH; split.
- by case=> [<-|[? ?]]; [split=> //; left | split=> //; right].
- by case=> [[->|?] ?]; [left | right].
- by case=> ? ?; split=> //; right.
- by case=> [[<-|?] //]; rewrite pa.
Qed.

Lemma hasIn A (p : pred A) (s : seq A) :
  reflect (exists2 x, List.In x s & p x) (has p s).
Proof.
elim: s => [|a s IH] /=; first by right=> -[].
case pa: (p a) => /=; first by left; exists a; [left|].
apply: (iffP IH); case=> x xs px; exists x => //; first by right.
by case: xs px => // <-; rewrite pa.
Qed.

Lemma allIn A (p : pred A) (s : seq A) :
  reflect (forall x, List.In x s -> p x) (all p s).
Proof.
elim: s => [|a s IH] /=; first by left.
case pa: (p a) => /=; last by right=> /(_ a (or_introl erefl)); rewrite pa.
apply: (iffP IH) => H x; first by case=> [<-|/H].
by move=> xs; apply: H; right.
Qed.

Lemma sizeIn0 A (s : seq A) : (forall x, ~ List.In x s) -> s = [::].
Proof. by case: s => // a s /(_ a) []; left. Qed.

Lemma In_mem (T : eqType) (x : T) (s : seq T) : List.In x s <-> x \in s.
Proof.
elim: s => [|a s IH] //=; rewrite inE; split.
- by case=> [->|H]; rewrite ?eqxx // (proj1 IH H) orbT.
- by case/orP=> [/eqP ->|H]; [left | right; apply/IH].
Qed.

Lemma nth_In T (x0 : T) s i : i < size s -> List.In (nth x0 s i) s.
Proof. by elim: s i => //= x s IH [|i]; [left | move=> /IH; right]. Qed.
