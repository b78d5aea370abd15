(* Python sets of objects with a user defined __eq__, as used for sets of
   PointGroupElements (qsymm/groups.py:187-224).

   A set is a list in which no two elements are [eqb]-equal.  CPython stores an
   element only if no equal element is present, so on insertion the element
   already stored wins.  Hashing is assumed compatible with __eq__ (this is
   property C10, which is studied separately). *)
From mathcomp Require Import all_ssreflect.
From Verif Require Import Prelude.

Set Implicit Arguments.
Unset Strict Implicit.
Unset Printing Implicit Defensive.

Section PySet.
Variables (T : Type) (eqb : rel T).
Implicit Types (s t : seq T) (x y : T).

(* x in s *)
Definition set_mem s x : bool := has (eqb x) s.
(* s.add(x) *)
Definition set_add s x : seq T := if set_mem s x then s else rcons s x.
(* s | t, keeping the elements of s *)
Definition set_union s t : seq T := foldl set_add s t.
(* {x for x in t} *)
Definition set_of t : seq T := set_union [::] t.
(* s - t *)
Definition set_diff s t : seq T := [seq x <- s | ~~ set_mem t x].
(* s <= t *)
Definition set_sub s t : bool := all (set_mem t) s.
(* s == t *)
Definition set_eq s t : bool := set_sub s t && set_sub t s.

(* no two stored elements are equal *)
Fixpoint set_wf s : bool :=
  if s is x :: s' then ~~ set_mem s' x && set_wf s' else true.

Hypothesis eqb_refl : reflexive eqb.
Hypothesis eqb_sym : symmetric eqb.
Hypothesis eqb_trans : transitive eqb.

Lemma set_memP s x : reflect (exists2 y, List.In y s & eqb x y) (set_mem s x).
Proof. exact: hasIn. Qed.

Lemma set_mem_In s x : List.In x s -> set_mem s x.
Proof. by move=> xs; apply/set_memP; exists x. Qed.

Lemma set_mem_eqb s x y : eqb x y -> set_mem s x = set_mem s y.
Proof.
move=> xy; apply/set_memP/set_memP => -[z zs e]; exists z => //.
  by apply: eqb_trans e; rewrite eqb_sym.
exact: eqb_trans e.
Qed.

Lemma set_mem_cat s t x : set_mem (s ++ t) x = set_mem s x || set_mem t x.
Proof. exact: has_cat. Qed.

Lemma set_mem_add s x y : set_mem (set_add s x) y = set_mem s y || eqb y x.
Proof.
rewrite /set_add; case: ifP => [sx|_]; last first.
  by rewrite /set_mem -cats1 has_cat /= orbF.
by apply/esym/orb_idr => yx; rewrite (set_mem_eqb _ yx).
Qed.

Lemma set_mem_union s t x : set_mem (set_union s t) x = set_mem s x || set_mem t x.
Proof.
rewrite /set_union; elim: t s => [|y t IH] s /=; first by rewrite orbF.
by rewrite IH set_mem_add -orbA.
Qed.

Lemma set_mem_of t x : set_mem (set_of t) x = set_mem t x.
Proof. by rewrite set_mem_union. Qed.

Lemma In_set_add s x y : List.In y (set_add s x) -> List.In y s \/ y = x.
Proof. by rewrite /set_add; case: ifP => _ H; [left | apply/In_rcons]. Qed.

Lemma In_set_union s t y : List.In y (set_union s t) -> List.In y s \/ List.In y t.
Proof.
rewrite /set_union; elim: t s => [|z t IH] s /=; first by left.
case/IH => [/In_set_add [?|->]|?]; first by left.
  by right; left.
by right; right.
Qed.

Lemma In_set_of t y : List.In y (set_of t) -> List.In y t.
Proof. by case/In_set_union. Qed.

Lemma set_mem_diff s t x : set_mem (set_diff s t) x = set_mem s x && ~~ set_mem t x.
Proof.
apply/set_memP/andP => [[y /In_filter [ys yt] xy]|[/set_memP [y ys xy] xt]].
  by split; [apply/set_memP; exists y | rewrite (set_mem_eqb _ xy)].
by exists y => //; apply/In_filter; split; rewrite // -(set_mem_eqb _ xy).
Qed.

Lemma In_set_diff s t y : List.In y (set_diff s t) -> List.In y s /\ ~~ set_mem t y.
Proof. by move/In_filter. Qed.

Lemma set_subP s t : reflect (forall x, set_mem s x -> set_mem t x) (set_sub s t).
Proof.
apply: (iffP (allIn _ _)) => H x.
  by case/set_memP=> y ys xy; rewrite (set_mem_eqb _ xy); apply: H.
by move=> xs; apply: H; apply: set_mem_In.
Qed.

Lemma set_eqP s t : reflect (set_mem s =1 set_mem t) (set_eq s t).
Proof.
apply: (iffP andP) => [[/set_subP st /set_subP ts] x|E].
  by apply/idP/idP => [/st|/ts].
by split; apply/set_subP => x; rewrite E.
Qed.

Lemma set_wf_rcons s x : set_wf (rcons s x) = set_wf s && ~~ set_mem s x.
Proof.
elim: s => [|y s IH] //=.
rewrite IH /set_mem -cats1 has_cat /= orbF !negb_or -/(set_mem s y) eqb_sym.
by rewrite -!andbA; congr (_ && _); rewrite [RHS]andbCA.
Qed.

Lemma set_wf_add s x : set_wf s -> set_wf (set_add s x).
Proof. by rewrite /set_add; case: ifP => // sx ws; rewrite set_wf_rcons ws sx. Qed.

Lemma set_wf_union s t : set_wf s -> set_wf (set_union s t).
Proof.
rewrite /set_union; elim: t s => [|x t IH] s //= ws.
by apply: IH; apply: set_wf_add.
Qed.

Lemma set_wf_of t : set_wf (set_of t).
Proof. exact: set_wf_union. Qed.

Lemma set_wf_filter (p : pred T) s : set_wf s -> set_wf (filter p s).
Proof.
elim: s => [|x s IH] //= /andP[xs /IH ws]; case: ifP => //= _.
rewrite ws andbT; apply: contra xs => /set_memP [y /In_filter [ys _] xy].
by apply/set_memP; exists y.
Qed.

Lemma set_wf_diff s t : set_wf s -> set_wf (set_diff s t).
Proof. exact: set_wf_filter. Qed.

(* A well formed set is no longer than any list covering it. *)
Lemma set_wf_size s t : set_wf s -> set_sub s t -> size s <= size t.
Proof.
elim: s t => [|x s IH] t //= /andP[xs ws] /andP[xt st].
have [y yt xy] := set_memP _ _ xt.
have [t1 [t2 Et]] := List.in_split _ _ yt.
have: size s <= size (t1 ++ t2).
  apply: IH => //; apply/allIn => z zs.
  have := (allIn _ _ st) z zs; rewrite Et !set_mem_cat.
  case/orP=> [->//|/= /orP[zy|->]]; last by rewrite orbT.
  case/negP: xs; apply/set_memP; exists z => //.
  by apply: eqb_trans xy _; rewrite eqb_sym.
by rewrite Et !size_cat /= addnS ltnS.
Qed.

(* Sets that contain each other have the same number of elements. *)
Lemma set_eq_size s t : set_wf s -> set_wf t -> set_eq s t -> size s = size t.
Proof.
move=> ws wt /andP[st ts].
by apply/eqP; rewrite eqn_leq !set_wf_size.
Qed.

Lemma set_sub_size_eq s t :
  set_wf s -> set_wf t -> set_sub s t -> size t <= size s -> set_eq s t.
Proof.
move=> ws wt st le; rewrite /set_eq st /=; apply/allIn => x xt.
apply/negPn/negP => nxs.
have wxs : set_wf (x :: s) by rewrite /= nxs ws.
have sub : set_sub (x :: s) t by rewrite /= set_mem_In.
by have := set_wf_size wxs sub; rewrite /= ltnNge le.
Qed.

Lemma set_size_lt s t x :
  set_wf s -> set_sub s t -> set_mem t x -> ~~ set_mem s x -> size s < size t.
Proof.
move=> ws st xt nxs.
by apply: (@set_wf_size (x :: s) t); rewrite /= ?nxs ?xt.
Qed.

Lemma set_diff_nil s t : set_diff s t = [::] -> set_sub s t.
Proof.
move=> E; apply/allIn => x xs; apply/negPn/negP => nxt.
have : List.In x (set_diff s t) by apply/In_filter.
by rewrite E.
Qed.

End PySet.
