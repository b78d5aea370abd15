(* Proofs about generate_subgroups (model in GroupGen.v). *)
From mathcomp Require Import all_ssreflect.
From Verif Require Import Prelude PySet GroupGen GroupGenProofs.

Set Implicit Arguments.
Unset Strict Implicit.
Unset Printing Implicit Defensive.

Section Subgroups.
Variables (T : Type) (eqb : rel T) (mul : T -> T -> T) (ord : seq T -> seq T).
Hypothesis eqb_refl : reflexive eqb.
Hypothesis eqb_sym : symmetric eqb.
Hypothesis eqb_trans : transitive eqb.
Hypothesis eqb_mul : forall x x' y y', eqb x x' -> eqb y y' -> eqb (mul x y) (mul x' y').
Hypothesis mulA : forall x y z, mul x (mul y z) = mul (mul x y) z.
Hypothesis ordP : forall s x, List.In x (ord s) <-> List.In x s.

Notation mem := (set_mem eqb).
Notation set_union := (set_union eqb).
Notation set_sub := (set_sub eqb).
Notation set_eq := (set_eq eqb).
Notation set_wf := (set_wf eqb).
Notation generated gens := (gen_by mul (fun x => List.In x gens)).
Notation generate_group := (generate_group eqb mul ord).
Notation sgdict := (seq (seq T * seq T)).
Notation sg_has := (@sg_has T eqb).
Notation sg_set := (@sg_set T eqb).
Notation sg_cyclic := (sg_cyclic eqb mul ord).
Notation sg_pass := (sg_pass eqb mul ord).
Notation sg_loop := (sg_loop eqb mul ord).
Notation generate_subgroups := (generate_subgroups eqb mul ord).

(* x is equal to a product of elements of w *)
Definition genE (w : seq T) (x : T) : Prop := exists2 y, generated w y & eqb x y.

(* k is, as a set, the closure of w *)
Definition Gen (w k : seq T) : Prop := forall x, mem k x <-> genE w x.

Lemma genE_eqb w x y : eqb x y -> genE w y -> genE w x.
Proof. by move=> xy [z gz yz]; exists z => //; apply: eqb_trans yz. Qed.

Lemma genE_mul w x y : genE w x -> genE w y -> genE w (mul x y).
Proof.
move=> [x' gx xx'] [y' gy yy']; exists (mul x' y'); first exact: gen_mul.
exact: eqb_mul.
Qed.

Lemma genE_base w x : mem w x -> genE w x.
Proof. by case/(@set_memP T eqb) => y wy xy; exists y => //; apply: gen_base. Qed.

Lemma genE_incl w1 w2 x :
  (forall y, List.In y w1 -> genE w2 y) -> genE w1 x -> genE w2 x.
Proof.
move=> H [y gy xy]; apply: genE_eqb xy _.
by elim: gy => [z /H //|u v _ ? _ ?]; apply: genE_mul.
Qed.

Lemma genE_rcons w g x : genE (rcons w g) x <-> genE (set_union w [:: g]) x.
Proof.
split; apply: genE_incl => y.
- case/In_rcons=> [wy|->]; apply: genE_base; rewrite set_mem_union //.
    by rewrite set_mem_In.
  by rewrite /set_mem /= eqb_refl orbT.
- case/(@In_set_union T eqb) => [wy|[->|//]]; apply: genE_base; apply: set_mem_In => //;
    apply/In_rcons; [left|right] => //.
Qed.

Lemma Gen_generate fuel w k : generate_group fuel w = Some k -> Gen w k.
Proof. by move=> H x; apply: (generate_group_mem eqb_refl eqb_sym eqb_trans eqb_mul mulA ordP H). Qed.

Lemma Gen_set_eq w k k' : Gen w k -> Gen w k' -> set_eq k k'.
Proof. move=> G G'; apply/set_eqP => // x.
by apply/idP/idP => H; [apply/G'/G | apply/G/G']. Qed.

Lemma set_eq_Gen w k k' : set_eq k k' -> Gen w k -> Gen w k'.
Proof. by move=> /(set_eqP eqb_refl eqb_sym eqb_trans) E G x; rewrite -E. Qed.

Lemma set_eq_sym k k' : set_eq k k' = set_eq k' k.
Proof. by rewrite /PySet.set_eq andbC. Qed.

Lemma set_eq_trans k1 k2 k3 : set_eq k1 k2 -> set_eq k2 k3 -> set_eq k1 k3.
Proof.
move=> /(set_eqP eqb_refl eqb_sym eqb_trans) E /(set_eqP eqb_refl eqb_sym eqb_trans) E'.
by apply/set_eqP => // x; rewrite E E'.
Qed.

(* ---- dictionary keyed by frozensets ---- *)
Lemma sg_hasP d k : reflect (exists2 kv, List.In kv d & set_eq k kv.1) (sg_has d k).
Proof. exact: hasIn. Qed.

Lemma sg_has_set d k v k' : sg_has (sg_set d k v) k' <-> sg_has d k' \/ set_eq k' k.
Proof.
elim: d => [|kv d IH] /=; first by rewrite orbF; split=> [|[]] //; right.
case: ifP => [E|E] /=.
  split; first by move=> ->; left.
  case=> [//|E']; rewrite (set_eq_trans E' E) //.
rewrite -!(rwP orP); split.
- by case=> [->|/IH [->|->]]; [left; left|left; right|right].
- by case=> [[->|H]|H]; [left|right; apply/IH; left|right; apply/IH; right].
Qed.

Lemma In_sg_set d k v kv :
  List.In kv (sg_set d k v) ->
  List.In kv d \/ [/\ kv.2 = v, set_eq k kv.1 & kv.1 = k \/ exists v0, List.In (kv.1, v0) d].
Proof.
elim: d => [|kv0 d IH] /=.
  by case=> // <-; right; split=> //; [apply/set_eqP | left].
case: ifP => E /=.
  case=> [<-|?]; [right | by left; right].
  by split=> //; right; exists kv0.2; left; case: (kv0).
case=> [<-|/IH [?|[? ? [?|[v0 ?]]]]]; [by left; left | by left; right | |];
  right; split=> //; [by left | by right; exists v0; right].
Qed.

(* keys pairwise different as sets *)
Fixpoint distinct (d : sgdict) : Prop :=
  if d is kv :: d' then ~~ sg_has d' kv.1 /\ distinct d' else True.

Lemma distinct_set d k v : distinct d -> distinct (sg_set d k v).
Proof.
elim: d => [|kv d IH] //= [nh ds].
case: ifP => E /=; first by split.
split; last exact: IH.
apply/negP => /sg_has_set [H|H]; first by rewrite H in nh.
by rewrite set_eq_sym E in H.
Qed.

Lemma sg_set_new d k v : ~~ sg_has d k -> sg_set d k v = rcons d (k, v).
Proof.
elim: d => [|kv d IH] //=; rewrite negb_or => /andP[/negbTE -> /IH ->]; by [].
Qed.

(* ---- invariants of the search inside a finite group ---- *)
Variable group : seq T.
Hypothesis group_wf : set_wf group.
Hypothesis group_closed : forall a b, mem group a -> mem group b -> mem group (mul a b).

Definition in_group (w : seq T) : Prop := forall x, List.In x w -> mem group x.

Lemma genE_group w x : in_group w -> genE w x -> mem group x.
Proof.
move=> wg [y gy xy]; rewrite (set_mem_eqb eqb_sym eqb_trans _ xy).
by elim: gy => [z /wg //|u v _ ? _ ?]; apply: group_closed.
Qed.

Definition entry_ok (kv : seq T * seq T) : Prop :=
  [/\ set_wf kv.1, Gen kv.2 kv.1, in_group kv.2 & 0 < size kv.2].

(* no generating list of the same set is shorter *)
Definition minimal (kv : seq T * seq T) : Prop :=
  forall w, Gen w kv.1 -> size kv.2 <= size w.

(* all sets generated by at most n elements are present *)
Definition covers (n : nat) (d : sgdict) : Prop :=
  forall w, 0 < size w -> size w <= n -> in_group w ->
  exists2 kv, List.In kv d & Gen w kv.1.

Lemma Gen_in_group w kv : entry_ok kv -> Gen w kv.1 -> in_group w.
Proof.
case=> _ Gv inv _ Gw x wx; apply: (genE_group inv).
by apply/Gv/Gw/genE_base/set_mem_In.
Qed.

Lemma Gen_nonempty w kv : entry_ok kv -> Gen w kv.1 -> 0 < size w.
Proof.
case=> _ Gv _; case: (kv.2) Gv => // g v Gv _ Gw.
have: mem kv.1 g by apply/Gv/genE_base; rewrite /set_mem /= eqb_refl.
by move/Gw; case: w {Gw} => // -[y gy _]; elim: gy.
Qed.

Lemma Gen_rcons_swap v w k g x :
  Gen v k -> Gen w k -> genE (rcons v g) x -> genE (rcons w g) x.
Proof.
move=> Gv Gw; apply: genE_incl => y /In_rcons [vy|->].
- have /Gw : mem k y by apply/Gv/genE_base/set_mem_In.
  by apply: genE_incl => z wz; apply/genE_base/set_mem_In => //; apply/In_rcons; left.
- by apply/genE_base/set_mem_In => //; apply/In_rcons; right.
Qed.

Lemma in_group_rcons w g : in_group (rcons w g) <-> in_group w /\ mem group g.
Proof.
split=> [H|[H1 H2] x /In_rcons [/H1//|->//]].
by split=> [x wx|]; apply: H; apply/In_rcons; [left|right].
Qed.

(* extending by one generator keeps being covered *)
Lemma covers_step n d : covers n.+1 d ->
  (forall kv, List.In kv d -> entry_ok kv) ->
  (forall kv, List.In kv d -> size kv.2 <= n \/ (forall x, mem group x -> mem kv.1 x)) ->
  forall m, covers m d.
Proof.
move=> cov ok small; elim=> [|m IH] w; first by case: (size w).
move=> w0 wm wg; case: (leqP (size w) n.+1) => [le|lt]; first exact: cov.
case/lastP: w w0 wm wg lt => // w g _; rewrite size_rcons ltnS => wm.
move=> /in_group_rcons [wg gg]; rewrite ltnS => lt.
have [kv dkv Gw] := IH w (leq_ltn_trans (leq0n _) lt) wm wg.
have [kvwf Gv vg v0] := ok _ dkv.
case: (small _ dkv) => [sz|full].
- have [|||kv' dkv' G'] := cov (rcons kv.2 g); rewrite ?size_rcons //.
    by apply/in_group_rcons.
  exists kv' => // x; split; first by move/G'; apply: Gen_rcons_swap.
  by move=> H; apply/G'; apply: (Gen_rcons_swap Gw Gv).
- exists kv => // x; split.
    move/Gw; apply: genE_incl => y wy; apply/genE_base/set_mem_In => //.
    by apply/In_rcons; left.
  by move=> H; apply: full; apply: genE_group H; apply/in_group_rcons.
Qed.

(* ---- one pass ---- *)
Section Pass.
Variables (gf n : nat) (subs0 : sgdict).
Hypothesis cov0 : covers n subs0.

Definition pass_inv (subs new : sgdict) : Prop :=
  [/\ distinct subs,
      forall kv, List.In kv subs <-> List.In kv subs0 \/ List.In kv new &
      forall kv, List.In kv new ->
        [/\ entry_ok kv, minimal kv, size kv.2 = n.+1 & n < size kv.1]].

Definition pass_ok (p : (seq T * seq T) * (seq T * seq T)) : Prop :=
  [/\ List.In p.1 subs0, entry_ok p.1 /\ size p.1.2 = n, n <= size p.1.1,
      entry_ok p.2 & size p.2.2 = 1].

Lemma sg_pass_spec pairs subs new subs' new' :
  (forall p, List.In p pairs -> pass_ok p) ->
  pass_inv subs new ->
  sg_pass gf pairs subs new = Some (subs', new') ->
  [/\ pass_inv subs' new',
      forall kv, List.In kv subs -> List.In kv subs' &
      forall p, List.In p pairs ->
        exists2 kv, List.In kv subs' & Gen (set_union p.1.2 p.2.2) kv.1].
Proof.
elim: pairs subs new => [|[[sg gen] [g1 gen1]] ps IH] subs new pok Hinv /=.
  by case=> <- <-; split.
have pok' : forall p, List.In p ps -> pass_ok p by move=> p ?; apply: pok; right.
have [insub [[sgwf Ggen geng gen0] szgen] szsg [g1wf Gg1 g1g _] szg1] := pok _ (or_introl erefl).
rewrite /= in insub sgwf Ggen geng gen0 szgen szsg g1wf Gg1 g1g szg1.
case: gen1 szg1 Gg1 g1g pok => // h [] // _ Gg1 g1g _.
have hg : mem group h by apply: g1g; left.
have hg1 : mem g1 h by apply/Gg1/genE_base; rewrite /set_mem /= eqb_refl.
have Hrun subs1 new1 : pass_inv subs1 new1 ->
    (forall kv, List.In kv subs -> List.In kv subs1) ->
    (exists2 kv, List.In kv subs1 & Gen (set_union gen [:: h]) kv.1) ->
    sg_pass gf ps subs1 new1 = Some (subs', new') ->
    [/\ pass_inv subs' new', forall kv, List.In kv subs -> List.In kv subs' &
     forall p, ((sg, gen), (g1, [:: h])) = p \/ List.In p ps ->
       exists2 kv, List.In kv subs' & Gen (set_union p.1.2 p.2.2) kv.1].
  move=> Hinv1 mono1 [kv1 in1 G1] /(IH _ _ pok' Hinv1) [Hinv' Hmono Hcov].
  split=> // [kv /mono1/Hmono //|p [<-|]]; last exact: Hcov.
  by exists kv1 => //; apply: Hmono.
have [dis Hin Hnew] := Hinv.
case: ifP => [nsub|/negbFE sub]; last first.
  apply: Hrun => //; exists (sg, gen); first by apply/Hin; left.
  move=> x; split.
    move/Ggen; apply: genE_incl => y gy; apply/genE_base.
    by rewrite set_mem_union // set_mem_In.
  move=> H; apply/Ggen; apply: genE_incl H => y /(@In_set_union T eqb) [gy|[<-|//]].
    by apply/genE_base/set_mem_In.
  by apply/Ggen; have /(set_subP eqb_refl eqb_sym eqb_trans) := sub; apply.
case E: (generate_group gf _) => [newsg|//].
have Gnew := Gen_generate E.
case: ifP => [nhas|/negbFE /sg_hasP [kv inkv ekv]]; last first.
  apply: Hrun => //; exists kv => //.
  exact: set_eq_Gen ekv Gnew.
have nhas' : ~~ sg_has new newsg.
  apply: contra nhas => /sg_hasP [kv inkv ekv]; apply/sg_hasP; exists kv => //.
  by apply/Hin; right.
rewrite !sg_set_new //.
have hsg : ~~ mem sg h.
  apply: contra nsub => sgh; apply/set_subP => // x /Gg1 Hx; apply/Ggen.
  by apply: genE_incl Hx => y [<-|//]; apply/Ggen.
have Egen : set_union gen [:: h] = rcons gen h.
  rewrite /PySet.set_union /= /set_add; case: ifP => // genh.
  by case/negP: hsg; apply/Ggen/genE_base.
have okn : entry_ok (newsg, set_union gen [:: h]).
  rewrite /entry_ok; cbn [fst snd]; split=> //.
  - exact: generate_group_wf E.
  - by rewrite Egen; apply/in_group_rcons.
  - by rewrite Egen size_rcons.
apply: Hrun.
- split.
  + rewrite -sg_set_new //; exact: distinct_set.
  + move=> kv; rewrite !In_rcons Hin; tauto.
  + move=> kv /In_rcons [/Hnew //|->]; rewrite /minimal; cbn [fst snd]; split=> //; last 2 first.
    * by rewrite Egen size_rcons szgen.
    * apply: leq_ltn_trans szsg _.
      apply: (set_size_lt eqb_sym eqb_trans sgwf _ _ hsg).
        apply/set_subP => // x /Ggen Hx; apply/Gnew.
        apply: genE_incl Hx => y gy; apply: genE_base.
        by rewrite set_mem_union // set_mem_In.
      by apply/Gnew/genE_base; rewrite set_mem_union // /set_mem /= eqb_refl orbT.
    * move=> w Gw; rewrite Egen size_rcons szgen ltnNge; apply/negP => szw.
      have [kv' inkv' Gkv'] := cov0 (Gen_nonempty okn Gw) szw (Gen_in_group okn Gw).
      case/negP: nhas; apply/sg_hasP; exists kv'; first by apply/Hin; left.
      exact: Gen_set_eq Gw Gkv'.
- by move=> kv ?; apply/In_rcons; left.
- by exists (newsg, set_union gen [:: h]) => //; apply/In_rcons; right.
Qed.
End Pass.

(* ---- cyclic subgroups ---- *)
Lemma sg_cyclic_spec gf gs d d' :
  in_group gs ->
  distinct d -> (forall kv, List.In kv d -> entry_ok kv /\ size kv.2 = 1) ->
  sg_cyclic gf gs d = Some d' ->
  [/\ distinct d', forall kv, List.In kv d' -> entry_ok kv /\ size kv.2 = 1,
      forall k, sg_has d k -> sg_has d' k &
      forall g, List.In g gs -> exists2 kv, List.In kv d' & Gen [:: g] kv.1].
Proof.
elim: gs d => [|g gs IH] d gsg dis ok /=; first by case=> <-; split.
have gsg' : in_group gs by move=> x ?; apply: gsg; right.
case E: (generate_group gf [:: g]) => [G|//] Hrun.
have GG := Gen_generate E.
have okG : entry_ok (G, [:: g]).
  by split=> //; [apply: generate_group_wf E | move=> x [<-|//]; apply: gsg; left].
have [||dis' ok' mono cov] := IH _ gsg' _ _ Hrun.
- exact: distinct_set.
- move=> [k v] Hkv; have [/ok //|/= [-> e2 kok]] := In_sg_set Hkv; split=> //.
  case: okG => wfG _ ingrp _; split=> //=; last exact: set_eq_Gen e2 GG.
  by case: kok => [-> //|[v0 /ok [[]]]].
split=> // [k dk|g' [<-|gs']].
- by apply: mono; apply/sg_has_set; left.
- have /sg_hasP [kv inkv ekv] : sg_has d' G.
    by apply: mono; apply/sg_has_set; right; exact: (Gen_set_eq GG GG).
  by exists kv => //; apply: set_eq_Gen ekv GG.
- exact: cov.
Qed.

Lemma pairs_mk A B (s : seq A) (t : seq B) p :
  List.In p [seq (a, b) | a <- s, b <- t] <-> List.In p.1 s /\ List.In p.2 t.
Proof.
rewrite In_allpairs; split; first by case=> x [y [? ? ->]].
by case: p => a b [? ?]; exists a, b.
Qed.

Lemma sg_minlenP (d : sgdict) kv : List.In kv d -> sg_minlen d <= size kv.1.
Proof.
case: d => // kv0 d; rewrite /sg_minlen.
have H (m : nat) (l : seq nat) : foldl minn m l <= m /\ forall x, List.In x l -> foldl minn m l <= x.
  elim: l m => [|x l IH] m //=; have [h1 h2] := IH (minn m x); split.
    exact: leq_trans h1 (geq_minl _ _).
  by move=> y [<-|/h2 //]; apply: leq_trans h1 (geq_minr _ _).
case=> [<-|dkv]; first exact: (H _ _).1.
by apply: (H _ _).2; apply/In_map_iff; exists kv.
Qed.

(* ---- main loop ---- *)
Definition cyc_ok (sg1 : sgdict) : Prop :=
  (forall kv, List.In kv sg1 -> entry_ok kv /\ size kv.2 = 1) /\
  (forall g, mem group g -> exists2 kv, List.In kv sg1 & Gen [:: g] kv.1).

Definition loop_inv (n : nat) (subs old : sgdict) : Prop :=
  [/\ distinct subs /\ covers n subs,
      forall kv, List.In kv subs -> [/\ entry_ok kv, minimal kv & size kv.2 <= n],
      forall kv, List.In kv old <-> List.In kv subs /\ size kv.2 = n &
      forall kv, List.In kv old -> n <= size kv.1].

(* one pass of the main loop: the invariant moves from n to n+1 *)
Lemma pass_step gf n sg1 subs old subs' new :
  0 < n -> cyc_ok sg1 -> loop_inv n subs old ->
  sg_pass gf [seq (a, b) | a <- old, b <- sg1] subs [::] = Some (subs', new) ->
  loop_inv n.+1 subs' new.
Proof.
move=> n0 [cyc1 cyc2] [[dis cov] ok oldP oldsz] Hrun.
have [||[dis' Hin Hnew] mono Hcov] := sg_pass_spec cov _ _ Hrun.
- move=> p /pairs_mk [po p1]; have [psubs psz] := proj1 (oldP _) po.
  have [pok _ _] := ok _ psubs; have [p1ok p1sz] := cyc1 _ p1.
  by split=> //; apply: oldsz.
- by split=> // kv; split=> [|[|[]]] //; left.
split.
- split=> // w w0; rewrite leq_eqVlt => /orP[/eqP|]; last first.
    rewrite ltnS => wn wg; have [kv ? ?] := cov _ w0 wn wg.
    by exists kv => //; apply: mono.
  case/lastP: w w0 => // w g _; rewrite size_rcons => -[szw] /in_group_rcons [wg gg].
  have [|||kv inkv Gw] := cov w; rewrite ?szw //.
  have [kvok kvmin kvle] := ok _ inkv.
  have [wfk Gv vg v0] := kvok.
  have Egen v' k' x : Gen v' k' -> Gen w k' -> genE (rcons v' g) x <-> genE (rcons w g) x.
    by move=> Gv' Gw'; split; [apply: (Gen_rcons_swap Gv' Gw') | apply: (Gen_rcons_swap Gw' Gv')].
  move: kvle; rewrite leq_eqVlt => /orP[/eqP szv|szv]; last first.
    have [|||kv' inkv' Gkv'] := cov (rcons kv.2 g); rewrite ?size_rcons //.
      by apply/in_group_rcons.
    exists kv'; first exact: mono.
    by move=> x; rewrite Gkv'; apply: Egen Gv Gw.
  have [kg inkg Gkg] := cyc2 _ gg.
  have [[wfkg Gkg' kgg _] szkg] := cyc1 _ inkg.
  have inold : List.In kv old by apply/oldP.
  have [|kv' inkv' Gkv'] := Hcov (kv, kg); first exact/pairs_mk.
  exists kv' => //.
  case: (kg.2) szkg Gkg' Gkv' => // h [] // _ Gh Gkv' x.
  rewrite -(Egen _ _ x Gv Gw); split.
  + move/Gkv'; rewrite -genE_rcons; apply: genE_incl => y /In_rcons [vy|->].
      by apply/genE_base/set_mem_In => //; apply/In_rcons; left.
    have: genE [:: g] h by apply/Gkg/Gh/genE_base; rewrite /set_mem /= eqb_refl.
    by apply: genE_incl => z [<-|//]; apply/genE_base/set_mem_In => //; apply/In_rcons; right.
  + move=> H; apply/Gkv'; rewrite -genE_rcons; apply: genE_incl H => y /In_rcons [vy|->].
      by apply/genE_base/set_mem_In => //; apply/In_rcons; left.
    have: genE [:: h] g by apply/Gh/Gkg/genE_base; rewrite /set_mem /= eqb_refl.
    by apply: genE_incl => z [<-|//]; apply/genE_base/set_mem_In => //; apply/In_rcons; right.
- move=> kv /Hin [/ok [? ? ?]|/Hnew [? ? -> _]]; split=> //; exact: leqW.
- move=> kv; split.
    by move=> inn; split; [apply/Hin; right | case: (Hnew _ inn)].
  case=> /Hin [/ok [_ _ le] sz|//]; by rewrite sz ltnn in le.
- by move=> kv /Hnew [].
Qed.

Lemma sg_loop_spec fuel gf n sg1 subs old d :
  0 < n -> cyc_ok sg1 -> loop_inv n subs old ->
  sg_loop fuel gf group sg1 subs old = Some d ->
  [/\ distinct d, forall kv, List.In kv d -> entry_ok kv /\ minimal kv &
      forall m, covers m d].
Proof.
elim: fuel n subs old => [|f IH] n subs old //= n0 cyc Hinv.
case E: (sg_pass _ _ _ _) => [[subs' new]|//].
have Hinv' := pass_step n0 cyc Hinv E.
have [[dis' cov'] ok' newP newsz] := Hinv'.
case: ifP => [stop|_]; last by apply: (IH n.+1).
case=> <-; split=> // [kv /ok' [] //|].
apply: (covers_step cov') => kv inkv; first by case: (ok' _ inkv).
have [[wfk Gk vg v0] _] := ok' _ inkv.
rewrite leq_eqVlt => /orP[/eqP sz|]; last by rewrite ltnS; left.
right; have innew : List.In kv new by apply/newP.
case/orP: stop => [/nilP En|/eqP Em]; first by rewrite En in innew.
have sub : set_sub kv.1 group by apply/set_subP => // x /Gk; apply: genE_group.
have := sg_minlenP innew; rewrite Em => le.
have /set_eqP E' := set_sub_size_eq eqb_refl eqb_sym eqb_trans wfk group_wf sub le.
by move=> x; rewrite E'.
Qed.

Lemma cyc_facts gf sg1 :
  sg_cyclic gf (ord group) [::] = Some sg1 -> cyc_ok sg1 /\ loop_inv 1 sg1 sg1.
Proof.
move=> E.
have [|||dis ok _ cov] := sg_cyclic_spec _ _ _ E => //.
  by move=> x /ordP ?; apply: set_mem_In.
have cyc2 g : mem group g -> exists2 kv, List.In kv sg1 & Gen [:: g] kv.1.
  case/(@set_memP T eqb) => g0 /ordP /cov [kv inkv Gk] gg0; exists kv => // x; rewrite Gk.
  by split; apply: genE_incl => y [<-|//]; apply: genE_base; rewrite /set_mem /= orbF // eqb_sym.
split=> //; split.
- split=> // -[|g [|]] // _ _ wg; apply: cyc2; apply: wg; by left.
- move=> kv inkv; have [okv szv] := ok _ inkv; split=> //; last by rewrite szv.
  by move=> w Gw; rewrite szv; apply: Gen_nonempty Gw.
- by move=> kv; split=> [inkv|[]//]; split=> //; case: (ok _ inkv).
- move=> kv inkv; have [[_ Gk _ v0] _] := ok _ inkv.
  case: (kv.2) v0 Gk => // g v _ Gk.
  have: mem kv.1 g by apply/Gk/genE_base; rewrite /set_mem /= eqb_refl.
  by case: (kv.1).
Qed.

Lemma generate_subgroups_spec fuel gf d :
  generate_subgroups fuel gf group = Some d ->
  [/\ distinct d, forall kv, List.In kv d -> entry_ok kv /\ minimal kv &
      forall m, covers m d].
Proof.
rewrite /GroupGen.generate_subgroups.
case E: (sg_cyclic _ _ _) => [sg1|//].
have [cyc Hinv] := cyc_facts E.
exact: (@sg_loop_spec fuel gf 1).
Qed.

(* ---- termination ---- *)
Hypothesis group_ne : 0 < size group.

Lemma gg_total gf w : size group < gf -> in_group w -> exists k, generate_group gf w = Some k.
Proof.
move=> lt wg; apply: (generate_group_terminates eqb_refl eqb_sym eqb_trans ordP _ lt).
by move=> x gx; apply: (genE_group wg); exists x.
Qed.

Lemma sg_cyclic_total gf gs d :
  size group < gf -> in_group gs -> exists d', sg_cyclic gf gs d = Some d'.
Proof.
move=> lt; elim: gs d => [|g gs IH] d gsg /=; first by exists d.
have [|k ->] := @gg_total gf [:: g] lt; first by move=> x [<-|//]; apply: gsg; left.
by apply: IH => x ?; apply: gsg; right.
Qed.

Lemma sg_pass_total gf pairs subs new :
  size group < gf ->
  (forall p, List.In p pairs -> in_group p.1.2 /\ in_group p.2.2) ->
  exists r, sg_pass gf pairs subs new = Some r.
Proof.
move=> lt; elim: pairs subs new => [|[[sg gen] [g1 gen1]] ps IH] subs new pok /=.
  by exists (subs, new).
have pok' p : List.In p ps -> in_group p.1.2 /\ in_group p.2.2 by move=> ?; apply: pok; right.
case: ifP => _; last exact: IH.
have [/= h1 h2] := pok _ (or_introl erefl).
have [|k ->] := @gg_total gf (set_union gen gen1) lt.
  by move=> x /(@In_set_union T eqb) [/h1|/h2].
by case: ifP => _; apply: IH.
Qed.

Lemma sg_loop_total fuel gf n sg1 subs old :
  size group < gf -> 0 < n -> cyc_ok sg1 -> loop_inv n subs old ->
  size group < fuel + n -> 0 < fuel ->
  exists d, sg_loop fuel gf group sg1 subs old = Some d.
Proof.
move=> lt; elim: fuel n subs old => [|f IH] n subs old //= n0 cyc Hinv ltn _.
have [r Er] : exists r, sg_pass gf [seq (a, b) | a <- old, b <- sg1] subs [::] = Some r.
  apply: sg_pass_total => // p /pairs_mk [p1 p2].
  have [_ ok oldP _] := Hinv; have [ps _] := proj1 (oldP _) p1.
  have [[_ _ ? _] _ _] := ok _ ps; have [[_ _ ? _] _] := cyc.1 _ p2; by split.
rewrite Er; case: r Er => subs' new Er.
have Hinv' := pass_step n0 cyc Hinv Er.
case: ifP => stop; first by exists subs'.
apply: (IH n.+1) => //; first by rewrite addnS.
case: f ltn {IH} => // ltn.
have [[_ _] ok' newP newsz] := Hinv'.
case: new stop newP newsz {Er Hinv'} => // kv new _ newP newsz.
have le := newsz _ (or_introl erefl).
have [insub _] := proj1 (newP kv) (or_introl erefl).
have [[wfk Gk vg _] _ _] := ok' _ insub.
have : size kv.1 <= size group.
  apply: (set_wf_size eqb_sym eqb_trans wfk).
  by apply/set_subP => // x /Gk; apply: genE_group.
by rewrite leqNgt (leq_trans ltn le).
Qed.

Lemma generate_subgroups_total fuel gf :
  size group < gf -> size group < fuel ->
  exists d, generate_subgroups fuel gf group = Some d.
Proof.
move=> ltg ltf; rewrite /GroupGen.generate_subgroups.
have [|sg1 E] := @sg_cyclic_total gf (ord group) [::] ltg.
  by move=> x /ordP ?; apply: set_mem_In.
rewrite E; have [cyc Hinv] := cyc_facts E.
apply: (@sg_loop_total _ _ 1) => //; first exact: leq_trans ltf (leq_addr _ _).
exact: leq_ltn_trans ltf.
Qed.

(* ---- final statements ---- *)
Lemma subgroups_sound fuel gf d :
  generate_subgroups fuel gf group = Some d ->
  forall k v, List.In (k, v) d ->
  [/\ set_wf k, (forall x, mem k x -> mem group x),
      (forall a b, mem k a -> mem k b -> mem k (mul a b)),
      0 < size k & forall x, mem k x <-> genE v x].
Proof.
move=> /generate_subgroups_spec [_ ok _] k v /ok [[/= wfk Gk vg v0] _].
split=> //.
- by move=> x /Gk; apply: genE_group.
- by move=> a b /Gk ka /Gk kb; apply/Gk/genE_mul.
- case: v v0 Gk {vg} => // g v _ Gk.
  have: mem k g by apply/Gk/genE_base; rewrite /set_mem /= eqb_refl.
  by case: (k).
Qed.

Lemma subgroups_complete fuel gf d (H : seq T) :
  generate_subgroups fuel gf group = Some d ->
  0 < size H -> (forall x, mem H x -> mem group x) ->
  (forall a b, mem H a -> mem H b -> mem H (mul a b)) ->
  exists k v, List.In (k, v) d /\ forall x, mem k x = mem H x.
Proof.
move=> /generate_subgroups_spec [_ _ cov] H0 Hg Hc.
have [|[k v] inkv Gk] := cov (size H) H H0 (leqnn _).
  by move=> x Hx; apply/Hg/set_mem_In.
exists k, v; split=> // x; apply/idP/idP => [/Gk|Hx]; last by apply/Gk/genE_base.
case=> y gy xy; rewrite (set_mem_eqb eqb_sym eqb_trans _ xy).
by elim: gy => [z Hz|u w _ ? _ ?]; [apply: set_mem_In | apply: Hc].
Qed.

Lemma subgroups_distinct fuel gf d :
  generate_subgroups fuel gf group = Some d -> distinct d.
Proof. by case/generate_subgroups_spec. Qed.

Lemma subgroups_minimal fuel gf d :
  generate_subgroups fuel gf group = Some d ->
  forall k v w, List.In (k, v) d -> (forall x, mem k x <-> genE w x) -> size v <= size w.
Proof. by move=> /generate_subgroups_spec [_ ok _] k v w /ok [_ mn]; apply: mn. Qed.

End Subgroups.
