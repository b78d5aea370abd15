(* Proofs about generate_group and set_multiply (model in GroupGen.v). *)
From mathcomp Require Import all_ssreflect.
From Verif Require Import Prelude PySet GroupGen.

Set Implicit Arguments.
Unset Strict Implicit.
Unset Printing Implicit Defensive.

(* Specification: the smallest set containing P and closed under
   multiplication, i.e. the values of all non-empty products of elements of P. *)
Inductive gen_by T (mul : T -> T -> T) (P : T -> Prop) : T -> Prop :=
| gen_base x : P x -> gen_by mul P x
| gen_mul x y : gen_by mul P x -> gen_by mul P y -> gen_by mul P (mul x y).

Section Closure.
Variables (T : Type) (eqb : rel T) (mul : T -> T -> T) (ord : seq T -> seq T).
Hypothesis eqb_refl : reflexive eqb.
Hypothesis eqb_sym : symmetric eqb.
Hypothesis eqb_trans : transitive eqb.
Hypothesis eqb_mul : forall x x' y y', eqb x x' -> eqb y y' -> eqb (mul x y) (mul x' y').
Hypothesis mulA : forall x y z, mul x (mul y z) = mul (mul x y) z.
Hypothesis ordP : forall s x, List.In x (ord s) <-> List.In x s.

Notation mem := (set_mem eqb).
Notation set_of := (set_of eqb).
Notation set_union := (set_union eqb).
Notation set_diff := (set_diff eqb).
Notation set_sub := (set_sub eqb).
Notation set_wf := (set_wf eqb).
Notation generated gens := (gen_by mul (fun x => List.In x gens)).
Notation set_multiply := (set_multiply eqb mul ord).
Notation gg_loop := (gg_loop eqb mul ord).
Notation generate_group := (generate_group eqb mul ord).

Let InDiff s t y := @In_set_diff T eqb s t y.
Let InOf t y := @In_set_of T eqb t y.
Let InUnion s t y := @In_set_union T eqb s t y.

Lemma gen_by_incl (P Q : T -> Prop) x :
  (forall y, P y -> gen_by mul Q y) -> gen_by mul P x -> gen_by mul Q x.
Proof. by move=> PQ; elim=> [y /PQ|y z _ ? _ ?] //; apply: gen_mul. Qed.

Lemma mem_products s t x :
  mem (set_of [seq mul a b | a <- ord s, b <- ord t]) x <->
  exists a b, [/\ mem s a, mem t b & eqb x (mul a b)].
Proof.
rewrite set_mem_of //; split.
- case/set_memP=> y /In_allpairs [a [b [/ordP sa /ordP tb ->]]] xy.
  by exists a, b; rewrite !set_mem_In.
- case=> a [b [/set_memP [a' sa aa'] /set_memP [b' tb bb'] xab]].
  apply/set_memP; exists (mul a' b'); last by apply: eqb_trans xab _; apply: eqb_mul.
  by apply/In_allpairs; exists a', b'; split=> //; apply/ordP.
Qed.

Lemma mem_set_multiply s t x :
  mem (set_multiply s t) x <-> exists a b, [/\ mem s a, mem t b & eqb x (mul a b)].
Proof. exact: mem_products. Qed.

Lemma In_set_multiply s t x :
  List.In x (set_multiply s t) -> exists a b, [/\ List.In a s, List.In b t & x = mul a b].
Proof.
move=> H; have {H}/In_allpairs [a [b [/ordP ? /ordP ? ->]]] := InOf H.
by exists a, b.
Qed.

(* What the loop preserves. *)
Let inv_closed gens group old :=
  forall a, mem group a -> mem old a \/ forall b, mem gens b -> mem group (mul a b).

Lemma gg_loop_closed fuel gens group old G :
  inv_closed gens group old -> set_sub old group ->
  gg_loop fuel gens group old = Some G ->
  set_sub group G /\ forall a b, mem G a -> mem gens b -> mem G (mul a b).
Proof.
elim: fuel group old => [|n IH] group old //= Hinv Hsub.
set new := set_diff _ _; case E: new => [|y new'].
  case=> <-; split; first by apply/set_subP.
  move=> a b Ga gb; case: (Hinv a Ga) => [olda|]; last by apply.
  have /set_subP subn := set_diff_nil E; apply: subn => //.
  by apply/mem_products; exists a, b.
rewrite -E => {E y new'} Hrun.
have Hnew x : mem new x = mem (set_of [seq mul a b | a <- ord old, b <- ord gens]) x && ~~ mem group x.
  exact: set_mem_diff.
have [||Hs Hc] := IH _ _ _ _ Hrun.
- move=> a; rewrite set_mem_union // => /orP[ga|]; last by left.
  right=> b gb; rewrite set_mem_union // Hnew.
  case: (Hinv a ga) => [olda|/(_ b gb) -> //].
  case gab: (mem group (mul a b)) => //=; rewrite andbT.
  by apply/mem_products; exists a, b.
- by apply/set_subP => // x; rewrite set_mem_union // => ->; rewrite orbT.
split=> //; apply/set_subP => // x gx.
by have /set_subP := Hs; apply => //; rewrite set_mem_union // gx.
Qed.

Lemma gg_loop_sound fuel (P : T -> Prop) gens group old G :
  (forall x, List.In x gens -> gen_by mul P x) ->
  (forall x, List.In x group -> gen_by mul P x) ->
  (forall x, List.In x old -> gen_by mul P x) ->
  gg_loop fuel gens group old = Some G -> forall x, List.In x G -> gen_by mul P x.
Proof.
move=> Hgens; elim: fuel group old => [|n IH] group old //= Hg Ho.
set new := set_diff _ _.
have Hn x : List.In x new -> gen_by mul P x.
  case/InDiff => H _.
  have {H}/In_allpairs [a [b [/ordP oa /ordP gb ->]]] := InOf H.
  by apply: gen_mul; [apply: Ho | apply: Hgens].
case E: new => [|y new'] => [[<-] //|]; rewrite -E => {E y new'}.
by apply: IH => // x /InUnion [/Hg|/Hn].
Qed.

Lemma gg_loop_wf fuel gens group old G :
  set_wf group -> gg_loop fuel gens group old = Some G -> set_wf G.
Proof.
elim: fuel group old => [|n IH] group old //= wf.
set new := set_diff _ _; case E: new => [|y new'] => [[<-] //|].
by apply: IH; apply: set_wf_union.
Qed.

Lemma gg_loop_terminates fuel gens group old (L : seq T) :
  (forall x, generated gens x -> mem L x) ->
  (forall x, List.In x group -> generated gens x) ->
  (forall x, List.In x old -> generated gens x) ->
  set_wf group ->
  size L < fuel + size group ->
  exists G, gg_loop fuel gens group old = Some G.
Proof.
move=> cover; elim: fuel group old => [|n IH] group old Hg Ho wf lt /=.
  have : size group <= size L.
    by apply: (set_wf_size eqb_sym eqb_trans wf); apply/allIn => x /Hg/cover.
  by rewrite leqNgt lt.
set new := set_diff _ _.
have Hn x : List.In x new -> generated gens x.
  case/InDiff => H _.
  have {H}/In_allpairs [a [b [/ordP oa /ordP gb ->]]] := InOf H.
  by apply: gen_mul; [apply: Ho | apply: gen_base].
case E: new => [|y new']; first by exists group.
rewrite -E; apply: IH => //; last first.
- have lt2 : size group < size (set_union group new).
    apply: (@set_size_lt _ eqb eqb_sym eqb_trans group _ y) => //.
    + by apply/set_subP => // x; rewrite set_mem_union // => ->.
    + by rewrite set_mem_union // E /= eqb_refl orbT.
    + by have /InDiff [] : List.In y new by rewrite E; left.
  by apply: leq_trans lt _; rewrite addSnnS leq_add2l.
- by apply: set_wf_union.
- by move=> x /InUnion [/Hg|/Hn].
Qed.

Lemma generated_set_of gens x : generated (set_of gens) x -> generated gens x.
Proof. by apply: gen_by_incl => y /InOf ?; apply: gen_base. Qed.

(* Elements of the result are literally products of the generators passed. *)
Lemma generate_group_sound fuel gens G :
  generate_group fuel gens = Some G -> forall x, List.In x G -> generated gens x.
Proof.
by move=> H; apply: (@gg_loop_sound fuel _ _ _ _ _ _ _ _ H) => x /InOf ?;
  apply: gen_base.
Qed.

Lemma generate_group_closed_gens fuel gens G :
  generate_group fuel gens = Some G ->
  (forall x, mem gens x -> mem G x) /\
  (forall a b, mem G a -> mem gens b -> mem G (mul a b)).
Proof.
move=> H; have [||Hs Hc] := gg_loop_closed _ _ H.
- by move=> a; left.
- by apply/set_subP.
split=> [x gx|a b Ga gb].
  by have /set_subP := Hs; apply => //; rewrite set_mem_of.
by apply: Hc => //; rewrite set_mem_of.
Qed.

(* Every product of generators is (equal to) an element of the result. *)
Lemma generate_group_complete fuel gens G :
  generate_group fuel gens = Some G -> forall x, generated gens x -> mem G x.
Proof.
move=> H; have [Hg Hc] := generate_group_closed_gens H.
have Hr y : generated gens y -> forall x, mem G x -> mem G (mul x y).
  elim=> [z gz x Gx|y1 y2 _ IH1 _ IH2 x Gx]; first by apply: Hc => //; apply: set_mem_In.
  by rewrite mulA; apply: IH2; apply: IH1.
move=> x; elim=> [z gz|y z _ Gy gz _]; first by apply: Hg; apply: set_mem_In.
exact: Hr.
Qed.

Lemma generate_group_wf fuel gens G : generate_group fuel gens = Some G -> set_wf G.
Proof. by apply: gg_loop_wf; apply: set_wf_of. Qed.

Lemma generate_group_mem fuel gens G :
  generate_group fuel gens = Some G ->
  forall x, mem G x <-> exists2 y, generated gens y & eqb x y.
Proof.
move=> H x; split.
- by case/set_memP=> y Gy xy; exists y => //; apply: generate_group_sound H _ Gy.
- case=> y gy xy; rewrite (set_mem_eqb eqb_sym eqb_trans _ xy).
  exact: generate_group_complete H _ gy.
Qed.

Lemma generate_group_closed fuel gens G :
  generate_group fuel gens = Some G ->
  forall a b, mem G a -> mem G b -> mem G (mul a b).
Proof.
move=> H a b /(generate_group_mem H) [a' ga aa'] /(generate_group_mem H) [b' gb bb'].
apply/(generate_group_mem H); exists (mul a' b'); first exact: gen_mul.
exact: eqb_mul.
Qed.

Lemma generate_group_least fuel gens G (S : seq T) :
  generate_group fuel gens = Some G ->
  (forall x, mem gens x -> mem S x) ->
  (forall a b, mem S a -> mem S b -> mem S (mul a b)) ->
  forall x, mem G x -> mem S x.
Proof.
move=> H gS SS x /(generate_group_mem H) [y gy xy].
rewrite (set_mem_eqb eqb_sym eqb_trans _ xy) => {x xy}.
elim: gy => [z gz|u v _ ? _ ?]; last exact: SS.
by apply: gS; apply: set_mem_In.
Qed.

(* If the products take finitely many values the loop terminates. *)
Lemma generate_group_terminates gens (L : seq T) :
  (forall x, generated gens x -> mem L x) ->
  forall fuel, size L < fuel -> exists G, generate_group fuel gens = Some G.
Proof.
move=> cover fuel lt; apply: (@gg_loop_terminates fuel _ _ _ L).
- by move=> x /generated_set_of/cover.
- by move=> x ?; apply: gen_base.
- by move=> x ?; apply: gen_base.
- exact: set_wf_of.
- exact: leq_trans lt (leq_addr _ _).
Qed.

Lemma generate_group_fuel_mono fuel fuel' gens G :
  fuel <= fuel' -> generate_group fuel gens = Some G -> generate_group fuel' gens = Some G.
Proof.
rewrite /GroupGen.generate_group; move: (set_of gens) => g le.
suff H group old : gg_loop fuel g group old = Some G -> gg_loop fuel' g group old = Some G.
  exact: H.
elim: fuel fuel' le group old => [|n IH] [|n'] //= le group old.
by case: (set_diff _ _) => [|y s] //; apply: IH.
Qed.

(* ---- when the elements live in a group ---- *)
Variables (e : T) (inv : T -> T).
Hypothesis mul1x : forall x, eqb (mul e x) x.
Hypothesis mulVx : forall x, eqb (mul (inv x) x) e.

Lemma eqb_mulK x y z : eqb (mul x y) (mul x z) -> eqb y z.
Proof.
move=> H; have H1 : eqb (mul (mul (inv x) x) y) (mul (mul (inv x) x) z).
  by rewrite -!mulA; apply: eqb_mul.
apply: (@eqb_trans (mul e y)); first by rewrite eqb_sym; apply: mul1x.
apply: (@eqb_trans (mul e z)); last exact: mul1x.
apply: (@eqb_trans (mul (mul (inv x) x) y)).
  by apply: eqb_mul => //; rewrite eqb_sym; apply: mulVx.
by apply: eqb_trans H1 _; apply: eqb_mul.
Qed.

Lemma mulx1 x : eqb (mul x e) x.
Proof.
apply: (@eqb_mulK (inv x)); rewrite mulA.
apply: (@eqb_trans (mul e e)); first by apply: eqb_mul; [apply: mulVx|].
apply: (@eqb_trans e); first exact: mul1x.
by rewrite eqb_sym; apply: mulVx.
Qed.

Lemma mulxV x : eqb (mul x (inv x)) e.
Proof.
apply: (@eqb_mulK (inv x)); rewrite mulA.
apply: (@eqb_trans (mul e (inv x))); first by apply: eqb_mul; [apply: mulVx|].
apply: (@eqb_trans (inv x)); first exact: mul1x.
by rewrite eqb_sym; apply: mulx1.
Qed.

Lemma inv_unique x y : eqb (mul x y) e -> eqb y (inv x).
Proof.
move=> H; apply: (@eqb_mulK x).
by apply: eqb_trans H _; rewrite eqb_sym; apply: mulxV.
Qed.

Lemma eqb_inv x y : eqb x y -> eqb (inv x) (inv y).
Proof.
move=> xy; apply: inv_unique; apply: (@eqb_trans (mul x (inv x))); last exact: mulxV.
by apply: eqb_mul => //; rewrite eqb_sym.
Qed.

(* x^(n+1) *)
Fixpoint pw x n := if n is m.+1 then mul x (pw x m) else x.

Lemma pw_mem G x n :
  (forall a b, mem G a -> mem G b -> mem G (mul a b)) -> mem G x -> mem G (pw x n).
Proof. by move=> cl Gx; elim: n => //= n IH; apply: cl. Qed.

Lemma pw_cancel x i j : eqb (pw x i) (pw x (i + j).+1) -> eqb (pw x j) e.
Proof.
elim: i => [|i IH] /= H.
  apply: (@eqb_mulK x); rewrite add0n in H.
  by rewrite eqb_sym; apply: eqb_trans (mulx1 x) H.
by apply: IH; apply: eqb_mulK H.
Qed.

(* two powers with exponents below size G + 1 coincide *)
Lemma pw_repeat G x :
  (forall a b, mem G a -> mem G b -> mem G (mul a b)) -> mem G x ->
  exists i j, eqb (pw x i) (pw x (i + j).+1).
Proof.
move=> cl Gx.
have H n : set_wf [seq pw x i | i <- rev (iota 0 n)] \/
           exists i j, eqb (pw x i) (pw x (i + j).+1).
  elim: n => [|n [wf|]]; [by left| |by right].
  rewrite -addn1 iotaD rev_cat /= add0n.
  case M: (mem [seq pw x i | i <- rev (iota 0 n)] (pw x n)); last first.
    by left; apply/andP; split=> //; apply/negbT.
  right; case/set_memP: M => y /In_map_iff [i].
  rewrite In_mem mem_rev mem_iota add0n /= => lt -> e'.
  have En : (i + (n - i.+1)).+1 = n by rewrite -addSn subnKC.
  exists i, (n - i.+1).
  by change (is_true (eqb (pw x i) (pw x (i + (n - i.+1)).+1))); rewrite En eqb_sym.
case: (H (size G).+1) => // wf.
have := set_wf_size eqb_sym eqb_trans wf.
move=> /(_ G); rewrite size_map size_rev size_iota ltnn => K.
suff Hs : set_sub [seq pw x i | i <- rev (iota 0 (size G).+1)] G by move: (K Hs).
by rewrite /PySet.set_sub; apply/allIn => y /In_map_iff [i _ ->]; apply: pw_mem.
Qed.

Lemma finite_closed_has_e G x :
  (forall a b, mem G a -> mem G b -> mem G (mul a b)) -> mem G x -> mem G e.
Proof.
move=> cl Gx; have [i [j /pw_cancel H]] := pw_repeat cl Gx.
by rewrite -(set_mem_eqb eqb_sym eqb_trans _ H); apply: pw_mem.
Qed.

Lemma finite_closed_has_inv G x :
  (forall a b, mem G a -> mem G b -> mem G (mul a b)) -> mem G x -> mem G (inv x).
Proof.
move=> cl Gx; have [i [[|j] /pw_cancel /= H]] := pw_repeat cl Gx.
  rewrite -(set_mem_eqb eqb_sym eqb_trans _ (x := x)) //; apply: inv_unique.
  apply: (@eqb_trans (mul e x)); first exact: eqb_mul.
  exact: eqb_trans (mul1x x) H.
rewrite -(set_mem_eqb eqb_sym eqb_trans _ (inv_unique H)).
exact: pw_mem.
Qed.

Lemma generate_group_identity fuel gens G g :
  generate_group fuel gens = Some G -> mem gens g -> mem G e.
Proof.
move=> H gg; have [Hg _] := generate_group_closed_gens H.
exact: finite_closed_has_e (generate_group_closed H) (Hg _ gg).
Qed.

Lemma generate_group_inv fuel gens G x :
  generate_group fuel gens = Some G -> mem G x -> mem G (inv x).
Proof. by move=> H; apply: finite_closed_has_inv (generate_group_closed H). Qed.

End Closure.
