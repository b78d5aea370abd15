(* Proofs about the search loop of discrete_symmetries (model in GroupGen.v). *)
From mathcomp Require Import all_ssreflect.
From Verif Require Import Prelude PySet GroupGen GroupGenProofs SubgroupProofs.

Set Implicit Arguments.
Unset Strict Implicit.
Unset Printing Implicit Defensive.

Section DiscSym.
Variables (T : Type) (eqb : rel T) (mul : T -> T -> T) (ord : seq T -> seq T).
Hypothesis eqb_refl : reflexive eqb.
Hypothesis eqb_sym : symmetric eqb.
Hypothesis eqb_trans : transitive eqb.
Hypothesis eqb_mul : forall x x' y y', eqb x x' -> eqb y y' -> eqb (mul x y) (mul x' y').
Hypothesis mulA : forall x y z, mul x (mul y z) = mul (mul x y) z.
Hypothesis ordP : forall s x, List.In x (ord s) <-> List.In x s.
Variables (e : T) (inv : T -> T).
Hypothesis mul1x : forall x, eqb (mul e x) x.
Hypothesis mulVx : forall x, eqb (mul (inv x) x) e.

Variables (pick : T -> seq T -> T) (find : T -> option T) (check : pred T).
Variable ident : T -> T.
Hypothesis pickP : forall c s, List.In c s -> List.In (pick c s) s.
Hypothesis identP : forall c, eqb (ident c) e.

(* the symmetric elements, a subgroup *)
Variable S : T -> Prop.
Hypothesis S_eqb : forall x y, eqb x y -> S x -> S y.
Hypothesis S_mul : forall x y, S x -> S y -> S (mul x y).
Hypothesis S_inv : forall x, S x -> S (inv x).
Hypothesis S_e : S e.
(* _find_unitary decides membership in S and returns an equal element that
   passes the final check *)
Hypothesis findS : forall g gr, find g = Some gr -> [/\ eqb gr g, S g & check gr].
Hypothesis findN : forall g, find g = None -> ~ S g.

Notation mem := (set_mem eqb).
Notation set_wf := (set_wf eqb).
Notation set_union := (set_union eqb).
Notation set_diff := (set_diff eqb).
Notation generated gens := (gen_by mul (fun x => List.In x gens)).
Notation genE := (genE eqb mul).
Notation generate_group := (generate_group eqb mul ord).
Notation ds_loop := (ds_loop eqb mul ord inv pick find check).
Notation discrete_symmetries := (discrete_symmetries eqb mul ord inv pick find check).

Let InU s t y := @In_set_union T eqb s t y.
Let InA s x y := @In_set_add T eqb s x y.

Variables candidates L : seq T.
Hypothesis candL : forall x, mem candidates x -> mem L x.
Hypothesis L_closed : forall a b, mem L a -> mem L b -> mem L (mul a b).

Let mulx1' := mulx1 eqb_refl eqb_sym eqb_trans eqb_mul mulA mul1x mulVx.
Let mulxV' := mulxV eqb_refl eqb_sym eqb_trans eqb_mul mulA mul1x mulVx.

Lemma S_cancel_l x y : S x -> S (mul x y) -> S y.
Proof.
move=> Sx Sxy; apply: (@S_eqb (mul (mul (inv x) x) y)).
  by apply: (@eqb_trans (mul e y)); [apply: eqb_mul | apply: mul1x].
by rewrite -mulA; apply: S_mul => //; apply: S_inv.
Qed.

Lemma S_cancel_r x y : S y -> S (mul x y) -> S x.
Proof.
move=> Sy Sxy; apply: (@S_eqb (mul x (mul y (inv y)))).
  by apply: (@eqb_trans (mul x e)); [apply: eqb_mul; rewrite ?mulxV' | apply: mulx1'].
by rewrite mulA; apply: S_mul => //; apply: S_inv.
Qed.

Lemma S_invV x : S (inv x) -> S x.
Proof.
move=> Sx; apply: (@S_cancel_l (inv x)) => //.
by apply: (@S_eqb e) => //; rewrite eqb_sym; apply: mulVx.
Qed.

Lemma mem_gi g x : mem (set_of eqb [:: g; inv g]) x -> eqb x g \/ eqb x (inv g).
Proof. by rewrite set_mem_of // /set_mem /= orbF => /orP. Qed.

Definition found (y : T) : Prop := exists g, mem candidates g /\ find g = Some y.

Definition ds_inv c0 (cand symset genset nots : seq T) : Prop :=
  [/\ forall x, mem candidates x -> [\/ mem cand x, mem symset x | ~ S x],
      (forall x, mem cand x -> mem candidates x) /\ (forall x, mem nots x -> ~ S x),
      forall x, mem symset x <-> eqb x e \/ genE genset x,
      set_wf symset /\ (forall x, List.In x symset -> x = ident c0 \/ gen_by mul found x) &
      forall x, List.In x genset ->
        exists g, mem candidates g /\ find g = Some x].

Lemma genset_S c0 cand symset genset nots x :
  ds_inv c0 cand symset genset nots -> genE genset x -> S x.
Proof.
case=> _ _ _ _ gok [y gy xy]; apply: (@S_eqb y); first by rewrite eqb_sym.
elim: gy => [z /gok [g [_ /findS [zg Sg _]]]|u v _ ? _ ?]; last exact: S_mul.
by apply: (@S_eqb g) => //; rewrite eqb_sym.
Qed.

Lemma symset_S c0 cand symset genset nots x :
  ds_inv c0 cand symset genset nots -> mem symset x -> S x.
Proof.
move=> H; have [_ _ sP _ _] := H; case/sP=> [xe|]; last exact: genset_S H.
by apply: (@S_eqb e) => //; rewrite eqb_sym.
Qed.

Lemma genset_L c0 cand symset genset nots x :
  ds_inv c0 cand symset genset nots -> List.In x genset -> mem L x.
Proof.
case=> _ _ _ _ gok /gok [g [cg /findS [xg _ _]]].
by rewrite (set_mem_eqb eqb_sym eqb_trans _ xg); apply: candL.
Qed.

(* products of a symmetric and a non-symmetric element are not symmetric *)
Lemma nots_left A B x :
  (forall a, mem A a -> S a) -> (forall b, mem B b -> ~ S b) ->
  mem (set_multiply eqb mul ord A B) x -> ~ S x.
Proof.
move=> HA HB /(mem_set_multiply eqb_refl eqb_sym eqb_trans eqb_mul ordP) [a [b [Aa Bb xab]]] Sx.
by apply: (HB b) => //; apply: (@S_cancel_l a); [apply: HA | apply: S_eqb Sx].
Qed.

Lemma nots_right A B x :
  (forall a, mem A a -> ~ S a) -> (forall b, mem B b -> S b) ->
  mem (set_multiply eqb mul ord A B) x -> ~ S x.
Proof.
move=> HA HB /(mem_set_multiply eqb_refl eqb_sym eqb_trans eqb_mul ordP) [a [b [Aa Bb xab]]] Sx.
by apply: (HA a) => //; apply: (@S_cancel_r a b); [apply: HB | apply: S_eqb Sx].
Qed.

Lemma ds_loop_spec fuel gf c0 cand symset genset nots :
  ds_inv c0 cand symset genset nots ->
  size L < gf -> size cand <= fuel ->
  exists symset' genset', ds_loop fuel gf cand symset genset nots = Some (Ok (symset', genset')) /\
    exists nots', ds_inv c0 [::] symset' genset' nots'.
Proof.
move=> Hinv ltL; elim: fuel cand symset genset nots Hinv => [|n IH] [|c cand] symset genset nots Hinv //.
- by move=> _; exists symset, genset; split=> //; exists nots.
- by move=> _; exists symset, genset; split=> //; exists nots.
rewrite [size _]/= ltnS => szc; rewrite /ds_loop -/ds_loop.
set g := pick c (c :: cand); set cc := c :: cand.
have ccg : List.In g cc by apply: pickP; left.
have cg : mem cc g by apply: set_mem_In.
have [H1 [H2 H3] H4 [H5 H5'] H6] := Hinv.
have candg : mem candidates g by apply: H2.
have szd : size (set_diff cc [:: g]) <= n.
  rewrite /PySet.set_diff size_filter.
  have : ~~ all (fun x => ~~ mem [:: g] x) cc.
    apply/negP => /allIn /(_ g ccg); by rewrite /set_mem /= eqb_refl.
  rewrite all_count => ne.
  have : count (fun x => ~~ mem [:: g] x) cc < size cc by rewrite ltn_neqAle ne count_size.
  by move=> lt; apply: leq_trans szc; rewrite -ltnS.
have szd2 A B : size (set_diff (set_diff A B) B) <= n -> True by [].
have szf (A B : seq T) : size (set_diff A B) <= size A by rewrite size_filter count_size.
have gi_mem x : mem (set_of eqb [:: g; inv g]) x -> eqb x g \/ eqb x (inv g) by apply: mem_gi.
case Ef: (find g) => [gr|].
- have [grg Sg ->] := findS Ef; cbv beta iota delta [negb].
  have Hgi x : mem (set_of eqb [:: g; inv g]) x -> S x.
    by case/gi_mem => xe; [apply: (@S_eqb g) | apply: (@S_eqb (inv g)); last apply: S_inv]; rewrite // eqb_sym.
  set genset' := set_add eqb genset gr.
  have mem_gs' x : mem genset' x = mem genset x || eqb x gr by apply: set_mem_add.
  have In_gs' x : List.In x genset' -> List.In x genset \/ x = gr by apply: InA.
  have genL x : List.In x (set_union [:: gr] genset') -> mem L x.
    have grL : mem L gr by rewrite (set_mem_eqb eqb_sym eqb_trans _ grg); apply: candL.
    case/InU => [[<-//|//]|/In_gs' [|->//]].
    exact: genset_L Hinv.
  have cover x : generated (set_union [:: gr] genset') x -> mem L x.
    by elim=> [z /genL //|u v _ ? _ ?]; apply: L_closed.
  have [symset' Eg] : exists G, generate_group gf (set_union [:: gr] genset') = Some G.
    apply: (@generate_group_terminates T eqb mul ord _ _ _ _ _ L) => //.
  rewrite Eg.
  set cand2 := set_diff _ symset'; set n1 := set_diff (set_multiply _ _ _ _ _) nots.
  set n2 := set_union n1 _; set nots' := set_union nots n2.
  have GE := Gen_generate eqb_refl eqb_sym eqb_trans eqb_mul mulA ordP Eg.
  have EE x : genE (set_union [:: gr] genset') x <-> genE genset' x.
    split; apply: (genE_incl eqb_trans eqb_mul) => y.
      case/InU => [[<-|//]|gy]; apply: genE_base; first by rewrite mem_gs' eqb_refl orbT.
      exact: set_mem_In.
    move=> gy; apply: genE_base; rewrite set_mem_union //; apply/orP; right; exact: set_mem_In.
  have Hn1 x : mem n1 x -> ~ S x.
    rewrite set_mem_diff // => /andP[Hx _]; move: Hx; apply: nots_left => //.
  have Hnots' x : mem nots' x -> ~ S x.
    rewrite set_mem_union // => /orP[/H3//|]; rewrite set_mem_union // => /orP[/Hn1//|].
    exact: nots_right.
  apply: IH.
  + have sym_e : mem symset' e.
      apply: (generate_group_identity eqb_refl eqb_sym eqb_trans eqb_mul mulA ordP mul1x mulVx Eg (g := gr)).
      by rewrite set_mem_union // /set_mem /= eqb_refl.
    have Hsym x : mem symset' x <-> eqb x e \/ genE genset' x.
      rewrite GE EE; split; first by right.
      case=> // xe; apply/EE/GE; by rewrite (set_mem_eqb eqb_sym eqb_trans _ xe).
    have mono x : mem symset x -> mem symset' x.
      case/H4 => [?|Hx]; apply/Hsym; [by left|right].
      apply: (genE_incl eqb_trans eqb_mul) Hx => y gy.
      by apply: genE_base; rewrite mem_gs' set_mem_In.
    split.
    * move=> x /H1 [cx|/mono ?|?]; [|by apply: Or32|by apply: Or33].
      case xg: (eqb x g).
        apply: Or32; apply/Hsym; right; apply: genE_base; rewrite mem_gs'.
        by rewrite (eqb_trans xg) ?orbT // eqb_sym.
      case sx: (mem symset' x); first exact: Or32.
      case nx: (mem nots' x); first by apply: Or33; apply: Hnots'.
      by apply: Or31; rewrite /cand2 !set_mem_diff // sx nx /cc cx /set_mem /= xg.
    * split=> // x; rewrite /cand2 !set_mem_diff // => /andP[/andP[/andP[cx _] _] _]; exact: H2.
    * exact: Hsym.
    * split; first exact: generate_group_wf Eg.
      move=> x Hx; right.
      have := generate_group_sound ordP Eg Hx.
      apply: gen_by_incl => y /InU [[<-|//]|/In_gs' [/H6 ?|->]]; apply: gen_base => //; by exists g.
    * move=> x /In_gs' [/H6//|->]; by exists g.
  + exact: leq_trans (szf _ _) (leq_trans (szf _ _) szd).
- have nSg := findN Ef.
  have Hgi x : mem (set_of eqb [:: g; inv g]) x -> ~ S x.
    case/gi_mem => xe Sx; apply: nSg; first exact: S_eqb Sx.
    by apply: S_invV; apply: S_eqb Sx.
  set n1 := set_diff _ nots; set n2 := set_union n1 _; set nots' := set_union nots n2.
  have Hs x : mem symset x -> S x by apply: symset_S Hinv.
  have Hn1 x : mem n1 x -> ~ S x.
    by rewrite set_mem_diff // => /andP[Hx _]; move: Hx; apply: nots_right.
  have Hnots' x : mem nots' x -> ~ S x.
    rewrite set_mem_union // => /orP[/H3//|]; rewrite set_mem_union // => /orP[/Hn1//|].
    exact: nots_left.
  apply: IH; last exact: leq_trans (szf _ _) szd.
  split=> //.
  + move=> x /H1 [cx|?|?]; [|by apply: Or32|by apply: Or33].
    case xg: (eqb x g); first by apply: Or33 => Sx; apply: nSg; apply: S_eqb Sx.
    case nx: (mem nots' x); first by apply: Or33; apply: Hnots'.
    by apply: Or31; rewrite !set_mem_diff // nx /cc cx /set_mem /= xg.
  + split=> // x; rewrite !set_mem_diff // => /andP[/andP[cx _] _]; exact: H2.
Qed.

Lemma ds_inv_init c :
  ds_inv c (set_diff candidates [:: ident c]) [:: ident c] [::] [::].
Proof.
have mem1 x : mem [:: ident c] x = eqb x e.
  rewrite /set_mem /= orbF; apply/idP/idP => H.
    exact: eqb_trans H (identP c).
  by apply: eqb_trans H _; rewrite eqb_sym.
split.
- move=> x cx; case xe: (eqb x e); first by apply: Or32; rewrite mem1.
  by apply: Or31; rewrite set_mem_diff // cx mem1 xe.
- by split=> // x; rewrite set_mem_diff // => /andP[].
- move=> x; rewrite mem1; split; [by left | case=> // -[y gy _]].
  by elim: gy => [z []|].
- split; first by rewrite /PySet.set_wf /set_mem.
  by move=> x [<-|//]; left.
- by [].
Qed.

Lemma discrete_symmetries_spec fuel gf :
  0 < size candidates -> size candidates <= fuel -> size L < gf ->
  exists symset genset,
    [/\ discrete_symmetries fuel gf ident candidates = Some (Ok (symset, genset)),
        (forall x, mem candidates x -> (mem symset x <-> S x)),
        (forall x, mem symset x <-> eqb x e \/ genE genset x),
        set_wf symset /\
          (forall x, List.In x symset -> (exists c, x = ident c) \/ gen_by mul found x) &
        forall x, List.In x genset -> found x /\ S x].
Proof.
rewrite /GroupGen.discrete_symmetries; case E: candidates => [//|c cs] _; rewrite -E => le ltL.
have sz : size (set_diff candidates [:: ident c]) <= fuel.
  by apply: leq_trans le; rewrite size_filter count_size.
have [symset [genset [-> [nots Hinv]]]] := ds_loop_spec (ds_inv_init c) ltL sz.
exists symset, genset; have [H1 H2 H3 [H4 H4'] H5] := Hinv.
split=> //.
- move=> x /H1 [//|sx|nS]; first by split=> // _; apply: symset_S Hinv sx.
  by split=> [sx|//]; case: nS; apply: symset_S Hinv sx.
- by split=> // x /H4' [->|?]; [left; exists c | right].
- move=> x gx; split; first exact: H5.
  by apply: genset_S Hinv _; apply: genE_base; apply: set_mem_In.
Qed.
End DiscSym.
