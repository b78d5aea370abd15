(* C105: in three dimensions bravais_point_group finds the point group of the lattice *)
From mathcomp Require Import all_ssreflect all_algebra zify.
From mathcomp Require Import complex.
From Verif Require Import Prelude PySet GroupGen GroupGenProofs GroupSpec PGE Spin Factories LinSpan NullSpec Complement RingTac.
From Verif Require PropFactories PropPointGroups PointGroups PropLLL2.
From Verif Require Import Continuum PropContinuum LLL PropLLL CVP PropCVP PropVoronoi Bravais PropBravais PropBravais2.
From Verif Require Import Bravais3 Space3 Branch3 Rhomb3 Lattice3 Mono3.

Set Implicit Arguments.
Unset Strict Implicit.
Unset Printing Implicit Defensive.
Import Order.TTheory GRing.Theory Num.Theory.
Local Open Scope ring_scope.

(* ---- the sets partition the vectors ---- *)
Section Partition.
Variables (F : rcfType) (d : nat).
Implicit Types (vs : seq 'rV[F]_d).
Lemma uniq_flatten (T : eqType) (ss : seq (seq T)) : uniq ss -> (forall s, s \in ss -> uniq s) ->
  (forall s s' x, s \in ss -> s' \in ss -> x \in s -> x \in s' -> s = s') -> uniq (flatten ss).
Proof.
elim: ss => //= s ss IH /andP[sn u] us dis; rewrite cat_uniq us ?mem_head //= IH //; last 2 first.
- by move=> s' h; apply: us; rewrite inE h orbT.
- by move=> s' s'' x h h'; apply: dis; rewrite inE ?h ?h' orbT.
rewrite andbT; apply/hasPn => x /flattenP[s' s's xs']; apply: contra sn => xs.
by rewrite (dis s s' x) // ?mem_head // inE s's orbT.
Qed.
Lemma equals_perm vs : uniq vs -> perm_eq (flatten (equals vs)) vs.
Proof.
move=> u; apply: uniq_perm => //.
  apply: uniq_flatten; [exact: equals_uniq | move=> s; exact: equals_uniq_set u | move=> s s' x; exact: equals_disjoint].
move=> v; apply/flattenP/idP => [[S SE vS]|vv]; first exact: equals_sub SE vS.
by exists (class_of vs v); [exact: equals_in | rewrite mem_filter eqxx].
Qed.
Lemma equals_size vs : uniq vs -> size vs = sumn [seq size S | S <- equals vs].
Proof. by move=> /equals_perm/perm_size <-; rewrite size_flatten /shape. Qed.
End Partition.

Section Choice3.
Variables (F : rcfType) (n : nat) (cs sn : F -> F).
Let Rg := [comRingType of F].
Add Ring RrC3 : (R_ring Rg).
Hypothesis trig : PropPointGroups.trig_table cs sn.
Local Notation q v := (dot v v).
Local Notation cr := (@npcross F).
Local Notation rot3 := (@rot3 F n cs sn).
Local Notation s := (sn 6%:R^-1).
Lemma rot3_half a : pR (rot3 2%:R^-1 a) = half a.
Proof. by rewrite /rot3 /=; case: trig => _ _ [-> ->] _. Qed.
Lemma rot3_quart a : pR (rot3 4%:R^-1 a) = quart a.
Proof. by rewrite /rot3 /=; case: trig => [[-> ->]] _ _ _. Qed.
Lemma rot3_sixth a : pR (rot3 6%:R^-1 a) = sixth s a.
Proof. by rewrite /rot3 /=; case: trig => _ _ _ [-> ->]. Qed.
Lemma rot3_third a : pR (rot3 3%:R^-1 a) = third s a.
Proof. by rewrite /rot3 /=; case: trig => _ [-> ->] _ [_ ->]. Qed.
Let es : s ^+ 2 = 3%:R / 4%:R := sn6 trig.

Variable nb : seq 'rV[F]_3.
Hypothesis un : uniq (pms nb).
Hypothesis npar : forall u v, u \in nb -> v \in nb -> u != v -> cr u v != 0.
Hypothesis ncop : forall (D : seq 'rV[F]_3) x, uniq D -> {subset D <= nb} -> (3 < size D)%N -> (forall v, v \in D -> dot x v = 0) -> x = 0.
Hypothesis three : (2 < size nb)%N.
Local Notation sym := (Branch3.sym nb).
Let unb := uniq_nb un.
Definition sizes (vs : seq 'rV[F]_3) := [seq size S | S <- equals vs].

(* all generators are rotations *)
Lemma threefold_axisP S C : uniq S -> {subset S <= nb} -> threefold_axis n cs sn S nb = Ok (Some C) ->
  exists2 a, a != 0 & pR C = third s a \/ pR C = sixth s a.
Proof.
case: S => [|v0 [|v1 [|v2 [|]]]] // u sub; cbv beta iota zeta delta [threefold_axis].
have v01 : v0 != v1 by move: u; rewrite /= !inE negb_or => /andP[/andP[]].
have [b0 b1] : v0 \in nb /\ v1 \in nb by split; apply: sub; rewrite !inE eqxx ?orbT.
have q0 : q v0 != 0 by rewrite dot_eq0 (nz un).
case: ifP => // /negbFE/andP[/eqP q1 /eqP q2].
case: ifP => [_|nall].
  case: ifP => _; first by case=> <-; exists (cr v0 v1); [exact: npar | right; exact: rot3_sixth].
  by case: ifP => // _; case=> <-; exists (cr v0 v1); [exact: npar | left; exact: rot3_third].
set l := filter _ _; have lE : {subset l <= signs3 F} by move=> x; rewrite mem_filter => /andP[].
move: l lE => l lE [h]; have [a [b [c [ha hb hc ->]]]] : exists a b c : F, [/\ a * a = 1, b * b = 1, c * c = 1 & C = rot3 3%:R^-1 (a *: v0 + b *: v1 + c *: v2)].
  case: l h lE => //= x l [<-] /(_ _ (mem_head _ _)); case: x => a [b c] /allpairsP[[a' bc] [ia ibc []]] /= -> ebc.
  move: ibc; rewrite -[X in X \in _]ebc => /allpairsP[[b' c'] [ib ic []]] /= -> ->; exists a', b', c'; split=> //.
  - by move: ia; rewrite /= !inE => /orP[]/eqP ->; rewrite ?mulrNN mulr1.
  - by move: ib; rewrite /= !inE => /orP[]/eqP ->; rewrite ?mulrNN mulr1.
  - by move: ic; rewrite /= !inE => /orP[]/eqP ->; rewrite ?mulrNN mulr1.
eexists; last by left; exact: rot3_third.
apply: contraFneq nall => e0.
clear l lE h; have ov (x y z : 'rV[F]_3) (k l m : F) : k *: x + l *: y + m *: z = 0 -> k * k = 1 -> l * l = 1 -> m * m = 1 -> q x = q v0 -> q y = q v0 -> q z = q v0 ->
   `|dot x y| / q v0 = 2^-1.
  move=> e k1 l1 m1 qx qy qz.
  have h : q (k *: x + l *: y) = q (m *: z) by rewrite (_ : k *: x + l *: y = - (m *: z)) ?dotNl ?dotNr ?opprK //; apply/eqP; rewrite -addr_eq0 e.
  move: h; rewrite dotDl !dotDr !dotZl !dotZr (dotC y x) !mulrA k1 l1 m1 !mul1r qx qy qz => h.
  have {}h : (k * l * dot x y) *+ 2 = - q v0.
    have E D Q : (k * l * D) *+ 2 = (Q + k * l * D + (l * k * D + Q)) - Q - Q by rewrite mulr2n; ringm Rg.
    by rewrite (E _ (q v0)) h subrr sub0r.
  have nk t : t * t = 1 -> `|t| = 1 :> F.
    by move=> t1; apply/eqP; rewrite -(@eqr_expn2 _ 2) ?normr_ge0 ?ler01 // real_normK ?num_real // expr2 t1 expr1n.
  have : `|dot x y| *+ 2 = q v0.
    have /(congr1 Num.norm) := h; rewrite normrN normrMn !normrM (nk k) // (nk l) // !mul1r => ->.
    by rewrite ger0_norm // dot_ge0.
  by move=> <-; rewrite -mulr_natr invfM mulrA divff ?mul1r //; apply: contraNneq q0 => z0; move: h; rewrite (eqP _ : dot x y = 0) ?mulr0 ?mul0rn; [move/eqP; rewrite eq_sym oppr_eq0 | rewrite -normr_eq0 z0].
rewrite /= andbT; apply/and3P; split; apply/eqP.
- exact: (ov v0 v1 v2 a b c).
- by apply: (ov v0 v2 v1 a c b) => //; rewrite addrAC.
- by apply: (ov v1 v2 v0 b c a) => //; rewrite addrC addrA.
Qed.
Lemma mem_pairs (S : seq 'rV[F]_3) p : uniq S -> p \in pairs_of S -> [/\ p.1 \in S, p.2 \in S & p.1 != p.2].
Proof.
elim: S => //= v S IH /andP[vn u]; rewrite mem_cat => /orP[/mapP[w wS ->] /=|/(IH u) [h1 h2 h3]].
  by rewrite mem_head inE wS orbT; split=> //; apply: contraNneq vn => ->.
by rewrite !inE h1 h2 !orbT.
Qed.
Lemma sum_nz u v (e : F) : u \in nb -> v \in nb -> u != v -> e * e = 1 -> u + e *: v != 0.
Proof.
move=> ub vb uv e1; apply: contraNneq (npar ub vb uv); rewrite addrC => /eqP; rewrite addr_eq0 => /eqP h.
by rewrite -[u]opprK -h crNl crZl crxx scaler0 oppr0.
Qed.
Lemma twofold_axisP S C : uniq S -> {subset S <= nb} -> twofold_axis n cs sn S nb = Some C ->
  exists p1 p2 (e : F), [/\ p1 \in S, p2 \in S, p1 != p2, e * e = 1 & p1 + e *: p2 != 0] /\ pR C = half (p1 + e *: p2).
Proof.
move=> u sub; rewrite /twofold_axis; set axes := [seq _ | s <- _, p <- _]; set l := filter _ _ => h.
have [a aA ->] : exists2 a, a \in axes & C = rot3 2%:R^-1 a.
  have sl : forall g, List.In g l -> List.In g [seq rot3 2%:R^-1 a | a <- axes].
    move=> g; rewrite /l; elim: [seq _ | a <- axes] => //= g' t IH; case: ifP => _ /=; last by right; exact: IH.
    by case; [left | right; exact: IH].
  case: l h sl => //= g l [<-] /(_ g (or_introl erefl)).
  elim: axes => //= a t IH [<-|/IH [a' a't ->]]; first by exists a; rewrite ?mem_head.
  by exists a'; rewrite // inE a't orbT.
move: aA => /allpairsP[[e p] [/= ie ip ->]]; have [p1 p2 ne] := mem_pairs u ip.
have ee : e * e = 1 by move: ie; rewrite !inE => /orP[]/eqP ->; rewrite ?mulrNN mulr1.
exists p.1, p.2, e; split; last exact: rot3_half.
by split=> //; apply: sum_nz; rewrite ?sub.
Qed.

(* the generators that bravais_group_3d returns generate everything *)
Section Complete.
Variable Pr : 'M[F]_3 -> Prop.
Hypothesis PrM : forall A A', Pr A -> Pr A' -> Pr (A *m A').
Hypothesis PrN : Pr (- 1%:M).
Variable G : seq (pge F 3 n).
Hypothesis symG : forall g, List.In g G -> sym (pR g) /\ Pr (pR g).

Lemma set_in k : (k < size (equals nb))%N -> nth [::] (equals nb) k \in equals nb. Proof. exact: mem_nth. Qed.
Lemma single_in x : [:: x] \in equals nb -> x \in nb. Proof. by move/equals_sub; apply; rewrite mem_head. Qed.
Lemma all_singles : all (fun k => k == 1)%N (sizes nb) -> forall A t, sym A -> t \in nb -> pm (act A t) t.
Proof.
move=> /allP h A t sA tb; apply: (sym_single un sA).
have SE := equals_in tb; have tS : t \in class_of nb t by rewrite mem_filter eqxx.
have := h _ (map_f size SE); case: (class_of nb t) SE tS => [|x [|]] //= SE; rewrite inE => /eqP -> _ //.
Qed.

(* the sets, when their sizes are known *)
Lemma sizes_nth k : (k < size (sizes nb))%N -> nth [::] (equals nb) k \in equals nb /\ size (nth [::] (equals nb) k) = nth 0%N (sizes nb) k.
Proof. by rewrite size_map => h; rewrite mem_nth // (nth_map [::]). Qed.
Lemma sets_ne i j : (i < size (sizes nb))%N -> (j < size (sizes nb))%N -> i != j -> nth [::] (equals nb) i != nth [::] (equals nb) j.
Proof. by rewrite size_map => hi hj; rewrite nth_uniq // equals_uniq. Qed.
Definition has_gen A := sym A /\ Pr A.
Lemma b_triple3 S R : S \in equals nb -> size S = 3%N -> (forall v, v \in S -> has_gen (quart v)) -> sym R -> Pr R.
Proof.
case: S => [|a [|b [|c []]]] // SE _ h; have [h1 h2 h3] : [/\ has_gen (quart a), has_gen (quart b) & has_gen (quart c)].
  by split; apply: h; rewrite !inE eqxx ?orbT.
exact: (b_triple un npar PrM PrN SE h1.1 h2.1 h1.2 h2.2 h3.2).
Qed.
Lemma b_pair3 a b R : [:: a; b] \in equals nb -> has_gen (half a) -> has_gen (half b) -> has_gen (quart (cr a b)) -> sym R -> Pr R.
Proof. by move=> SE h1 h2 h3; exact: (b_pair un npar PrM PrN SE h1.1 h1.2 h2.2 h3.2). Qed.
Lemma in_gens (f : 'rV[F]_3 -> pge F 3 n) (vs : seq 'rV[F]_3) v : v \in vs -> List.In (f v) [seq f v | v <- vs].
Proof. by move=> h; apply: List.in_map; apply/In_mem. Qed.

Hypothesis two : forall a b u v u2 v2 R, (forall S, S \in equals nb -> (size S <= 2)%N) -> (size nb <= 7)%N ->
  size nb = sumn [seq size S | S <- equals nb] -> [seq size S | S <- equals nb] <> [:: 1; 2; 2; 2]%N ->
  [:: u; v] \in equals nb -> [:: u2; v2] \in equals nb -> u != v -> u2 != v2 -> [:: u; v] != [:: u2; v2] ->
  a != 0 -> b != 0 -> sym (half a) -> sym (half b) -> sw (half a) u v -> sw (half b) u2 v2 -> Pr (half a) -> Pr (half b) -> sym R -> Pr R.
Lemma axis_pair S C : S \in equals nb -> size S = 2%N -> twofold_axis n cs sn S nb = Some C ->
  exists u v a, [/\ S = [:: u; v], u != v, a != 0, pR C = half a & sw (half a) u v].
Proof.
move=> SE z2 h; have uS := equals_uniq_set unb SE.
have [p1 [p2 [e [[i1 i2 ne ee a0] eC]]]] := twofold_axisP uS (fun x => equals_sub SE) h.
have w := sw_half (equals_len SE i1 i2) a0 ee.
move: SE z2 uS i1 i2 {h}; case: S => [|u [|v []]] // SE _ /=; rewrite inE andbT => uv; rewrite !inE => i1 i2.
exists u, v, (p1 + e *: p2); split=> //.
move: i1 i2 ne w => /orP[]/eqP -> /orP[]/eqP ->; rewrite ?eqxx // => _ [w1 w2]; by split.
Qed.
Lemma sizes_sorted : sorted leq (sizes nb).
Proof. by rewrite /sizes; have [ks [_ _ ->]] := equals_classes nb; rewrite sorted_map; apply: sort_sorted => a b; exact: leq_total. Qed.
Lemma pairs_last : (1 < size (sizes nb))%N -> two_pairs (sizes nb) ->
  [/\ nth 0%N (sizes nb) (size (sizes nb) - 2) = 2%N, nth 0%N (sizes nb) (size (sizes nb) - 1) = 2%N & forall S, S \in equals nb -> (size S <= 2)%N].
Proof.
move=> s2 tp; have [h1 h2] : nth 0%N (sizes nb) (size (sizes nb) - 2) = 2%N /\ nth 0%N (sizes nb) (size (sizes nb) - 1) = 2%N.
  move: tp s2; rewrite /two_pairs; case/lastP: (sizes nb) => // l y; case/lastP: l => // l x.
  by rewrite belast_rcons !last_rcons /= last_rcons !size_rcons !nth_rcons !size_rcons !subSS !subn0 ltnn eqxx ltnS leqnn ltnn eqxx => /andP[/eqP -> /eqP ->].
split=> // S SE; have iS : (index S (equals nb) < size (sizes nb))%N by rewrite size_map index_mem.
have := sorted_leq_nth leq_trans leqnn 0%N sizes_sorted; move/(_ (index S (equals nb)) (size (sizes nb) - 1)%N).
rewrite h2 !inE iS (nth_map [::]) ?index_mem // nth_index //; apply=> //; move: s2 iS; move: (size _) (index _ _) => a b; clear; lia.
Qed.
Lemma complete3 R : bravais_group_3d n cs sn nb = Ok G -> sym R -> Pr R.
Proof.
rewrite /bravais_group_3d -/(sizes nb); case: ifP => // /negbT; rewrite -leqNgt => le7.
have half_in v : List.In (rot3 2%:R^-1 v) G -> has_gen (half v) by move/symG; rewrite rot3_half.
have quart_in v : List.In (rot3 4%:R^-1 v) G -> has_gen (quart v) by move/symG; rewrite rot3_quart.
have sixth_in v : List.In (rot3 6%:R^-1 v) G -> has_gen (sixth s v) by move/symG; rewrite rot3_sixth.
have sN := @sizes_nth; have sne := @sets_ne; have szE := equals_size unb; rewrite -/(sizes nb) in szE.
case: ifP => [/eqP e [eG]|n1].
  rewrite e in sN; have [SE zS] := sN 0%N isT.
  apply: (b_triple3 SE zS) => v vS; apply: quart_in; rewrite -eG; apply: in_gens; exact: equals_sub SE vS.
case: ifP => [/eqP e|n2].
  rewrite e in sN; have [] := sN 1%N isT; case: nth => [|a [|b []]] //= SE _ [eG].
  by apply: (b_pair3 SE); [apply: half_in | apply: half_in | apply: quart_in]; rewrite -eG /=; tauto.
case: ifP => [/eqP e [eG] sR|n3].
  rewrite e in sN sne; have [] := sN 0%N isT; have [] := sN 1%N isT; have := sne 0%N 1%N isT isT isT.
  case: nth => [|a []] //; case: nth => [|b []] // ne SE' _ SE _.
  have ab : a != b by apply: contraNneq ne => ->.
  have h v : v \in nb -> has_gen (half v) by move=> vb; apply: half_in; rewrite -eG; exact: in_gens.
  have [h1 h2] := (h a (single_in SE), h b (single_in SE')).
  exact: (b_singles un npar PrM PrN SE SE' ab h1.1 h1.2 h2.2).
case: ifP => [/eqP e [eG] sR|n4].
  rewrite e in sN; have [SE] := sN 0%N isT; have [SE' z'] := sN 1%N isT; move: SE eG.
  case: nth => [|a []] // SE eG _; have pS : nth 0 (nth [::] (equals nb) 1) 0 \in nth [::] (equals nb) 1 by rewrite mem_nth ?z'.
  have h1 : has_gen (sixth s a) by apply: sixth_in; rewrite -eG; left.
  have h2 : has_gen (half (nth 0 (nth [::] (equals nb) 1) 0)) by apply: half_in; rewrite -eG; right; left.
  exact: (b_hex un npar PrM PrN es SE SE' z' pS h1.1 h2.1 h1.2 h2.2).
case: ifP => [/eqP e|n5].
  rewrite e in sN sne; have [] := sN 0%N isT; have [] := sN 1%N isT; have [] := sN 2%N isT; have := sne 0%N 1%N isT isT isT.
  case: (nth [::] (equals nb) 2) => [|p [|r []]] //; case: nth => [|a []] //; case: nth => [|b []] // ne SP _ SE' _ SE _ /= [eG] sR.
  have ab : a != b by apply: contraNneq ne => ->.
  have [pS rS] : p \in [:: p; r] /\ r \in [:: p; r] by rewrite !inE !eqxx orbT.
  have [pb rb] := (equals_sub SP pS, equals_sub SP rS).
  have pr : p != r by have := equals_uniq_set unb SP; rewrite /= inE andbT.
  have x0 : p + r != 0 by have := sum_nz pb rb pr (mulr1 1); rewrite scale1r.
  have y0 : p - r != 0 by rewrite subr_eq0.
  have [h1 h2 h3] : [/\ has_gen (half (p + r)), has_gen (half (p - r)) & has_gen (half (cr p r))].
    by split; apply: half_in; rewrite -eG /=; tauto.
  apply: (b_base un npar PrM PrN x0 y0 (npar pb rb pr) _ _ _ h1.1 h2.1 h3.1 h1.2 h2.2 h3.2 SE SE' ab sR).
  - by rewrite dotDr dotNr !dotDl (dotC r p) (equals_len SP pS rS) [q r + _]addrC subrr.
  - by rewrite dotDl dot_crl dot_crr addr0.
  - by rewrite dotDl dotNl dot_crl dot_crr subr0.
case: ifP => [/eqP e|n6].
  case ea: (unpack1 _) => [a|//] /= [eG] sR.
  have ha : has_gen (half a) by apply: half_in; rewrite -eG; left.
  have am : a \in pick_perp nb 3 nb by move: ea; case: (pick_perp _ _ _) => [|x []] //= [->]; rewrite mem_head.
  move: am; rewrite mem_filter => /andP[ct ab].
  have fu : uniq [seq w <- nb | dot a w == 0] by rewrite filter_uniq.
  have : (2 < size [seq w <- nb | dot a w == 0%R])%N by rewrite size_filter.
  have fs w : w \in [seq w <- nb | dot a w == 0] -> w \in nb /\ dot a w = 0 by rewrite mem_filter => /andP[/eqP].
  case: filter fu fs => [|u [|v [|w l]]] // fu fs _.
  have [[u1 u2] [v1 v2] [w1 w2]] : [/\ u \in nb /\ dot a u = 0, v \in nb /\ dot a v = 0 & w \in nb /\ dot a w = 0].
    by split; apply: fs; rewrite !inE eqxx ?orbT.
  move: fu; rewrite /= !inE !negb_or => /and3P[/and3P[uv uw _] /andP[vw _] _].
  apply: (b_mono un npar PrM PrN (nz un ab) u1 v1 w1 uv uw vw u2 v2 w2 _ ha.2 sR).
  by apply: all_singles; rewrite e.
case: ifP => [/eqP e [eG]|n7].
  rewrite e in sN; have [SE zS] := sN 0%N isT.
  by apply: (b_triple3 SE zS) => v vS; apply: quart_in; rewrite -eG; exact: in_gens.
case: ifP => [e12|n8].
  set axes := if _ then _ else _; have [] : axes \in equals nb /\ size axes = 2%N.
    rewrite /axes; case/orP: e12 => /eqP e; rewrite e /=.
      by have := sN 1%N; rewrite e; apply.
    by have := sN 0%N; rewrite e; apply.
  case: axes => [|a [|b []]] //= SE _ [eG].
  by apply: (b_pair3 SE); [apply: half_in | apply: half_in | apply: quart_in]; rewrite -eG /=; tauto.
case: ifP => [e12|n9].
  have [a [b [l eE]]] : exists a b l, equals nb = [:: [:: a], [:: b] & l].
    have [l' [l'' e]] : exists l l', sizes nb = [:: 1, 1 & l]%N /\ l = l' by case/orP: e12 => /eqP ->; eexists; eexists; split.
    case: e; rewrite /sizes; case: (equals nb) => [|S1 [|S2 l]] //= [+ + _] _.
    by case: S1 => [|a []] // _; case: S2 => [|b []] // _; exists a, b, l.
  rewrite eE /=; case=> eG sR.
  have [SE SE'] : [:: a] \in equals nb /\ [:: b] \in equals nb by rewrite eE !inE !eqxx ?orbT.
  have ab : a != b.
    by have := equals_uniq nb; rewrite eE /= inE negb_or => /andP[/andP[ne _] _]; apply: contraNneq ne => ->.
  have [h1 h2] : has_gen (half a) /\ has_gen (half b) by split; apply: half_in; rewrite -eG /=; tauto.
  exact: (b_singles un npar PrM PrN SE SE' ab h1.1 h1.2 h2.2).
case: ifP => [/eqP e|n10].
  case ew: (unpack1 _) => [w|//] /= [eG] sR; have z6 : size nb = 6%N by rewrite szE e.
  set v := nth 0 nb 0 in ew eG; have vb : v \in nb by rewrite mem_nth // z6.
  have pw : pick_perp nb 1 [:: v] = [:: w] by move: ew; case: (pick_perp _ _ _) => [|x []] //= [->].
  have pp t : (t \in pick_perp nb 1 [:: v]) = (t \in nb) && (dot t v == 0).
    by rewrite mem_filter /= addn0 andbC; case: (_ == 0).
  have : w \in pick_perp nb 1 [:: v] by rewrite pw mem_head.
  rewrite pp => /andP[wb /eqP wv].
  have qq : q v = q w.
    have [SE SE'] := (equals_in vb, equals_in wb).
    have eS : class_of nb v = class_of nb w.
      move: SE SE'; rewrite /sizes in e; case: (equals nb) e => [|S []] //= _; by rewrite !inE => /eqP -> /eqP ->.
    by apply: (equals_len SE); [|rewrite eS]; rewrite mem_filter eqxx.
  have [h1 h2 h3] : [/\ has_gen (quart (v + w)), has_gen (quart (v - w)) & has_gen (quart (cr v w))].
    by split; apply: quart_in; rewrite -eG /=; tauto.
  apply: (b_fcc un PrM PrN z6 vb wb qq _ _ h1.1 h2.1 h3.1 h1.2 h2.2 h3.2 sR); first by rewrite dotC.
  by move=> t tb tv; apply/eqP; rewrite -(mem_seq1 t w) -pw pp tb tv eqxx.
case: ifP => [e12|n11].
  have [k ek] : exists k, size (sizes nb) = k.+2 /\ nth 0%N (sizes nb) k = 3%N /\ nth 0%N (sizes nb) k.+1 = 3%N.
    by case/orP: e12 => /eqP ->; [exists 1%N | exists 0%N].
  have [sk [k3 k3']] := ek.
  have [|SE zS] := sN k; first by rewrite sk.
  have [|SE' zS'] := sN k.+1; first by rewrite sk.
  have ne : nth [::] (equals nb) k != nth [::] (equals nb) k.+1 by apply: sne; rewrite ?sk // neq_ltn ltnSn.
  have -> : last [::] (equals nb) = nth [::] (equals nb) k.+1 by rewrite -nth_last -(size_map size) -/(sizes nb) sk.
  case er: threefold_axis => [[C|]|//] //=; case e2: twofold_axis => [D|//] /= [eG] sR.
  have uS := equals_uniq_set unb SE'; have sS : {subset nth [::] (equals nb) k.+1 <= nb} by move=> v; exact: equals_sub SE'.
  have [a a0 Ca] := threefold_axisP uS sS er; have [p1 [p2 [ep [[_ _ _ _ d0] Da]]]] := twofold_axisP uS sS e2; set d := p1 + ep *: p2 in d0 Da.
  have gC : has_gen (pR C) by apply: symG; rewrite -eG; left.
  have gD : has_gen (half d) by rewrite -Da; apply: symG; rewrite -eG; right; left.
  have gT : has_gen (third s a).
    case: Ca gC => -> // -[s6 p6]; rewrite -(sixth_sq es a0); split; [exact: sym_mul | exact: PrM].
  exact: (b_rhomb un npar PrM PrN ncop es a0 d0 gT.1 gT.2 gD.1 gD.2 SE SE' (etrans zS k3) (etrans zS' k3') ne sR).
case: ifP => [/eqP e|n12].
  case ep: (unpack2 _) => [[p r]|//] /= [eG] sR; rewrite e in sN sne; have [] := sN 0%N isT.
  set S0 := nth [::] (equals nb) 0 in ep eG *; case: S0 ep eG => [|a [|]] // ep eG SE _; rewrite /= in ep eG.
  have pw : pick_perp nb 1 [:: a] = [:: p; r] by move: ep; case: (pick_perp _ _ _) => [|x [|y []]] //= [-> ->].
  have pp t : (t \in pick_perp nb 1 [:: a]) = (t \in nb) && (dot t a == 0).
    by rewrite mem_filter /= addn0 andbC; case: (_ == 0).
  have [] : p \in pick_perp nb 1 [:: a] /\ r \in pick_perp nb 1 [:: a] by rewrite pw !inE !eqxx orbT.
  rewrite !pp => /andP[pb /eqP pa] /andP[rb /eqP ra].
  have pr : p != r.
    have : uniq (pick_perp nb 1 [:: a]) by rewrite filter_uniq.
    by rewrite pw /= inE andbT.
  have s2 S : S \in equals nb -> (size S <= 2)%N.
    move=> SE'; have : size S \in sizes nb by exact: map_f.
    by rewrite e !inE => /or4P[]/eqP ->.
  have [t tb tn] : exists2 t, t \in nb & t \notin [:: a; p; r].
    apply/hasP; rewrite -[has _ _]negbK -all_predC; apply/negP => /allP h.
    have := uniq_leq_size unb (fun t tb => negbNE (h t tb) : t \in [:: a; p; r]).
    by rewrite szE e.
  move: tn; rewrite !inE !negb_or => /and3P[ta tp tr].
  have [h1 h2] : has_gen (half a) /\ has_gen (half (p + r)) by split; apply: half_in; rewrite -eG /=; tauto.
  apply: (b_fco un npar PrM PrN SE s2 pb rb pr _ pa ra tb ta tp tr h1.1 h2.1 h1.2 h2.2 sR).
  move=> v vb va; have : v \in [:: p; r] by rewrite -pw pp vb va eqxx.
  by rewrite !inE => /orP[]/eqP ->; [left | right].
case: ifP => // s2; case: ifP => [tp|ntp].
  have {}s2 : (1 < size (sizes nb))%N by rewrite ltnNge; move: s2; rewrite ltnS => ->.
  have [k1 k2 small] := pairs_last s2 tp.
  have [i1 i2] : (size (sizes nb) - 2 < size (sizes nb))%N /\ (size (sizes nb) - 1 < size (sizes nb))%N.
    by move: s2; move: (size _) => a; clear; lia.
  have ne : (size (sizes nb) - 2)%N != (size (sizes nb) - 1)%N by move: s2; move: (size _) => a; clear; lia.
  have [E1 z1] := sN _ i1; have [E2 z2] := sN _ i2; rewrite k1 in z1; rewrite k2 in z2; have d := sne _ _ i1 i2 ne.
  case T1: twofold_axis => [g1|] //=; case T2: twofold_axis => [g2|] //= [eG] sR.
  have [u [v [a [eS1 uv a0 eg1 wa]]]] := axis_pair E1 z1 T1; have [u2 [v2 [b [eS2 uv2 b0 eg2 wb]]]] := axis_pair E2 z2 T2.
  rewrite eS1 in E1; rewrite eS2 in E2; rewrite eS1 eS2 in d.
  have [s1 p1] : has_gen (half a) by rewrite -eg1; apply: symG; rewrite -eG; left.
  have [s3 p3] : has_gen (half b) by rewrite -eg2; apply: symG; rewrite -eG; right; left.
  apply: (two small le7 szE _ E1 E2 uv uv2 d a0 b0 s1 s3 wa wb p1 p3 sR).
  by move=> e; move: n12; rewrite /sizes e.
case: ifP => // al _ sR.
have sm : sumn (sizes nb) = size (sizes nb).
  by elim: (sizes nb) al => //= k l IH /andP[/eqP -> /IH ->].
have z5 : (4 < size nb)%N.
  rewrite szE sm; move: al szE n3 n6; rewrite sm; case: (sizes nb) => [|k1 [|k2 [|k3 [|k4 [|k5 l]]]]] //=.
  - by move=> _ z; move: three; rewrite z.
  - by move=> _ z; move: three; rewrite z.
  - by move=> _ z; move: three; rewrite z.
  - by case/and4P=> /eqP -> /eqP -> /eqP ->.
  - by case/and5P=> /eqP -> /eqP -> /eqP -> /eqP ->.
exact: (b_tri un npar PrM PrN ncop z5 (all_singles al) sR).
Qed.
End Complete.
End Choice3.

(* ---- bravais_point_group in three dimensions ---- *)
Section Exact3.
Variables (F : rcfType) (n : nat).
Variables (cs sn : F -> F) (rnd : F -> int).
Variable near : F -> F -> bool.
Variable argsort : forall N, ('rV[int]_N -> F) -> seq 'rV[int]_N -> seq 'rV[int]_N.
Variable ord : forall d, seq (pge F d n) -> seq (pge F d n).
Hypothesis ordP : forall d, enumeration (@ord d).
Hypothesis rndP : forall x, `|x - (rnd x)%:~R| <= 2^-1.
Hypothesis near_refl : forall x, near x x.
Hypothesis argsort_perm : forall N key (s : seq 'rV[int]_N), perm_eq (argsort key s) s.
Hypothesis argsort_sorted : forall N key (s : seq 'rV[int]_N), sorted (fun z w => key z <= key w) (argsort key s).
Hypothesis trig : PropPointGroups.trig_table cs sn.
Local Notation gsc := (fun N => @gs_coefficient F N).
Local Notation bravais := (bravais_square cs sn rnd gsc near argsort (bravais_group_3d n cs sn) ord).
Implicit Types (B P : 'M[F]_3).

(* every generator is a rotation without spin *)
Definition bare3 (R : 'M[F]_3) : pge F 3 n := Pge R false false None false.
Definition turn (g : pge F 3 n) := exists2 R, orthogonal R & g = bare3 R.
Lemma turn_rot a v : a \in [:: 2%:R^-1; 3%:R^-1; 4%:R^-1; 6%:R^-1] -> turn (rot3 n cs sn a v).
Proof.
move=> ia; eexists; last by [].
have es := sn6 trig; move: ia; rewrite !inE => /or4P[]/eqP ->.
- have := half_orth v; rewrite -(rot3_half n trig); exact.
- have := third_orth es v; rewrite -(rot3_third n trig); exact.
- have := quart_orth v; rewrite -(rot3_quart n trig); exact.
- have := sixth_orth es v; rewrite -(rot3_sixth n trig); exact.
Qed.
Lemma turn_map a (vs : seq 'rV[F]_3) : a \in [:: 2%:R^-1; 3%:R^-1; 4%:R^-1; 6%:R^-1] ->
  forall g, List.In g [seq rot3 n cs sn a v | v <- vs] -> turn g.
Proof. by move=> ia; elim: vs => //= v vs IH g [<-|/IH //]; exact: turn_rot. Qed.
Lemma turn_head (l : seq (pge F 3 n)) C : (forall g, List.In g l -> turn g) -> ohead l = Some C -> turn C.
Proof. by case: l => //= g l h [<-]; apply: h; left. Qed.
Lemma in_filter (T : Type) (p : pred T) (l : seq T) x : List.In x [seq y <- l | p y] -> List.In x l.
Proof. by elim: l => //= y l IH; case: ifP => _ /= h; [case: h => [->|h]; [left | right; exact: IH] | right; exact: IH]. Qed.
Lemma turn_three S nb C : threefold_axis n cs sn S nb = Ok (Some C) -> turn C.
Proof.
case: S => [|v0 [|v1 [|v2 []]]] //; cbv beta iota zeta delta [threefold_axis].
case: ifP => // _; case: ifP => _.
  case: ifP => _; first by case=> <-; apply: turn_rot; rewrite !inE eqxx !orbT.
  by case: ifP => // _; case=> <-; apply: turn_rot; rewrite !inE eqxx !orbT.
set l := filter _ _; move: l => l [h]; apply: turn_head h => g.
by elim: l => //= x l IH [<-|/IH //]; apply: turn_rot; rewrite !inE eqxx !orbT.
Qed.
Lemma turn_two S nb C : twofold_axis n cs sn S nb = Some C -> turn C.
Proof.
rewrite /twofold_axis; set axes := [seq _ | s <- _, p <- _]; apply: turn_head => g h.
have := in_filter h; apply: turn_map; by rewrite !inE eqxx.
Qed.
Lemma turns nb G : bravais_group_3d n cs sn nb = Ok G -> forall g, List.In g G -> turn g.
Proof.
have i2 : (2%:R^-1 : F) \in [:: 2%:R^-1; 3%:R^-1; 4%:R^-1; 6%:R^-1] by rewrite !inE eqxx.
have i4 : (4%:R^-1 : F) \in [:: 2%:R^-1; 3%:R^-1; 4%:R^-1; 6%:R^-1] by rewrite !inE eqxx !orbT.
have i6 : (6%:R^-1 : F) \in [:: 2%:R^-1; 3%:R^-1; 4%:R^-1; 6%:R^-1] by rewrite !inE eqxx !orbT.
have [t2 t4 t6] := And3 (fun v => turn_rot v i2) (fun v => turn_rot v i4) (fun v => turn_rot v i6).
have [m2 m4] := (fun vs => @turn_map _ vs i2, fun vs => @turn_map _ vs i4).
rewrite /bravais_group_3d; case: ifP => // _.
case: ifP => [_ [<-]|_]; first exact: m4.
case: ifP => [_|_]; first by case: unpack2 => // p /= [<-] g [<-|]; [exact: t4 | exact: m2].
case: ifP => [_ [<-]|_]; first exact: m2.
case: ifP => [_ [<-] g [<-|[<-|[]]]|_]; [exact: t6 | exact: t2 |].
case: ifP => [_|_]; first by case: unpack2 => // p /= [<-] g [<-|[<-|[<-|[]]]]; exact: t2.
case: ifP => [_|_]; first by case: unpack1 => // p /= [<-] g [<-|[]]; exact: t2.
case: ifP => [_ [<-]|_]; first exact: m4.
case: ifP => [_|_]; first by case: unpack2 => // p /= [<-] g [<-|]; [exact: t4 | exact: m2].
case: ifP => [_ [<-] g [<-|]|_]; [exact: t2 | exact: m2 |].
case: ifP => [_|_]; first by case: unpack1 => // p /= [<-] g [<-|[<-|[<-|[]]]]; exact: t4.
case: ifP => [_|_].
  case E: threefold_axis => [[C|]|] //=; case E': twofold_axis => [D|] //= [<-] g [<-|[<-|[]]]; [exact: turn_three E | exact: turn_two E'].
case: ifP => [_|_]; first by case: unpack2 => // p /= [<-] g [<-|[<-|[<-|[]]]]; exact: t2.
case: ifP => // _; case: ifP => [_|_].
  case E: twofold_axis => [C|] //=; case E': twofold_axis => [D|] //= [<-] g [<-|[<-|[]]]; [exact: turn_two E | exact: turn_two E'].
by case: ifP => // _ [<-].
Qed.
Lemma turns_map G : (forall g, List.In g G -> turn g) -> exists2 Rs, G = [seq bare3 R | R <- Rs] & forall R, R \in Rs -> orthogonal R.
Proof.
elim: G => [|g G IH] h; first by exists [::].
have [|Rs eG o] := IH; first by move=> g' hg; apply: h; right.
have [R oR eg] := h g (or_introl erefl); exists (R :: Rs); first by rewrite eg eG.
by move=> R'; rewrite inE => /orP[/eqP ->|/o].
Qed.
Lemma group_of3 fuel P (V : seq 'rV[int]_3) Rs tr ph gens : row_free P -> 
  voronoi rnd (@argsort _) fuel P true 0 = Some (Ok V) ->
  (forall R, R \in Rs -> orthogonal R /\ preserves P R) ->
  map (@PointGroups.pkey F 3 n) gens = PointGroups.flag_keys tr ph (- 1%:M :: Rs) ->
  (forall g, List.In g gens -> pstrict g = false /\ pU g = None) ->
  (forall R, orthogonal R -> preserves P R -> gen_by (@mulmx F 3 3 3) (fun A => A \in - 1%:M :: Rs) R) ->
  exists order f0 G, forall fuel', (f0 <= fuel')%N ->
   [/\ generate_group (@pge_eq F 3 n) (@pge_mul F 3 n) (@ord _) fuel' (set_of (@pge_eq F 3 n) gens) = Some G,
      PropPointGroups.point_group tr ph (fun R => orthogonal R /\ preserves P R) order G & forall g, List.In g G -> pU g = None].
Proof.
move=> fP ev ok keys ns compl; have [zs szs _] := voronoiP fP rndP (@argsort_perm _) (@argsort_sorted _) ev.
have [S uS SP] := finite_symmetries rndP fP szs.
have H : [/\ uniq S, 1%:M \in S, {subset - 1%:M :: Rs <= S}, forall A A', A \in S -> A' \in S -> A *m A' \in S &
     (forall A, A \in S -> gen_by (@mulmx F 3 3 3) (fun A' => A' \in - 1%:M :: Rs) A) /\ forall A, A \in S -> A \in unitmx].
  split=> //.
  - by apply/SP; split; [rewrite /orthogonal trmx1 mulmx1 | exact: preserves1].
  - move=> A; rewrite inE => /orP[/eqP ->|/ok hA]; apply/SP => //.
    by split; [exact: orthogonalN1 | exact: preservesN1].
  - by move=> A A' /SP [o p] /SP [o' p']; apply/SP; split; [exact: orthogonal_mul | exact: preserves_mul].
  split=> A /SP [o p]; first exact: compl.
  by case: (mulmx1_unit o).
exists (size S), (size S * 4).+1%N.
have [|G EG [PG UG]] := PropPointGroups.finish_groupP ordP H keys _ (leqnn _).
- by move=> g /ns[].
have PG' := PropPointGroups.group_ext SP PG.
have {}EG : generate_group (@pge_eq F 3 n) (@pge_mul F 3 n) (@ord _) (size S * 4).+1 (set_of (@pge_eq F 3 n) gens) = Some G.
  by move: EG; rewrite /finish_group; case: generate_group => //= G' [->].
exists G => fuel' le; split=> //; last by apply: UG => g /ns[].
exact: generate_group_fuel_mono le EG.
Qed.

(* the generators that are found, for a reduced basis *)
Lemma space_generators fuel P V tr ph G gens : row_free P -> voronoi rnd (@argsort _) fuel P true 0 = Some (Ok V) ->
  let nb := take (size V)./2 [seq lattice_point P z | z <- V] in
  bravais_group_3d n cs sn nb = Ok G -> add_tr_ph tr ph None (inversion 3 None :: G) = Ok gens -> check_bravais_symmetry nb gens ->
  exists Rs, [/\ forall R, R \in Rs -> orthogonal R /\ preserves P R,
    map (@PointGroups.pkey F 3 n) gens = PointGroups.flag_keys tr ph (- 1%:M :: Rs),
    forall g, List.In g gens -> pstrict g = false /\ pU g = None &
    forall R, orthogonal R -> preserves P R -> gen_by (@mulmx F 3 3 3) (fun A => A \in - 1%:M :: Rs) R].
Proof.
move=> fP ev /=; have [zs szs eV] := voronoiP fP rndP (@argsort_perm _) (@argsort_sorted _) ev.
rewrite {}eV half_pm -/(neighbors P zs) => eG eg ck.
have un := uniq_neighbors fP szs; have [Rs eRs oRs] := turns_map (turns eG).
have [T [eg' kT sT UT]] := PropPointGroups.add_tr_phP tr ph None (inversion 3 None :: G).
have eQ : gens = (inversion 3 None :: G) ++ (if tr then [:: T] else [::]) ++ (if ph then [:: particle_hole 3 None] else [::]).
  by move: eg; rewrite eg' => -[].
have one : orthogonal (1%:M : 'M[F]_3) by rewrite /orthogonal trmx1 mulmx1.
have og : forall g, List.In g gens -> orthogonal (pR g).
  rewrite eQ; apply: (PropPointGroups.In_flags (P := fun g => orthogonal (pR g))) => //; last first.
    by case: (T) kT => ? ? ? ? ? [/= -> _ _].
  move=> g' [<-|] /=; first exact: orthogonalN1.
  by move=> /(turns eG) [R oR ->].
have sy := (check_bravaisP un og).1 ck.
have inG g : List.In g G -> List.In g gens.
  by move=> h; rewrite eQ; apply/In_cat; left; right.
have sym3 R : R \in Rs -> Branch3.sym (neighbors P zs) R.
  move=> RR; have h : List.In (bare3 R) gens by apply: inG; rewrite eRs; apply: List.in_map; apply/In_mem.
  by split; [exact: oRs | exact: (sy _ h)].
exists Rs; split.
- by move=> R /sym3 [o h]; split=> //; exact: permutes_preserves h.
- have ik : map (@PointGroups.pkey F 3 n) (inversion 3 None :: [seq bare3 R | R <- Rs]) = [seq (R, false, false) | R <- - 1%:M :: Rs].
    by rewrite /= -map_comp.
  by rewrite eQ eRs; exact: PropPointGroups.flag_keysE.
- rewrite eQ eRs; apply: (PropPointGroups.In_flags (P := fun g => pstrict g = false /\ pU g = None)) => //; last by split=> //; exact: UT.
  move=> g [<-|] //; elim: (Rs) => //= R s IH [<-|] //.
- move=> R o pr; pose Pr := gen_by (@mulmx F 3 3 3) (fun A => A \in - 1%:M :: Rs).
  have PM : forall A A', Pr A -> Pr A' -> Pr (A *m A') by move=> A A'; exact: gen_mul.
  have PN : Pr (- 1%:M) by apply: gen_base; rewrite mem_head.
  have npar := nb_npar fP szs; have ncop := nb_ncop fP szs.
  have symL : forall A w, Branch3.sym (neighbors P zs) A -> in_lattice P w -> in_lattice P (act A w).
    by move=> A w [oA hA] wL; have [h _] := permutes_preserves rndP fP szs oA hA w; exact: h.
  have Lsym : forall A, orthogonal A -> (forall w, in_lattice P w -> in_lattice P (act A w)) -> (forall w, in_lattice P (act A w) -> in_lattice P w) -> Branch3.sym (neighbors P zs) A.
    move=> A oA h1 h2; split=> // v vn; apply: (symmetry_permutes rndP fP szs oA); last by rewrite mem_pms vn.
    by move=> w; split; [exact: h1 | exact: h2].
  apply: (@complete3 F n cs sn trig (neighbors P zs) un npar ncop (nb_three rndP fP szs) Pr PM PN G _ _ R eG).
  + move=> g; rewrite eRs => gG; have [A AR eA] : exists2 A, A \in Rs & g = bare3 A.
      by move: gG => /List.in_map_iff [A [<- /In_mem AR]]; exists A.
    by rewrite eA; split; [exact: sym3 | apply: gen_base; rewrite inE AR orbT].
  + move=> a b u v u2 v2 A small seven sums pat.
    exact: (b_two rndP un npar ncop (@in_latD F P) (@in_latN F P) (@nb_lat F P zs) (nb_min rndP fP szs) (nb_all rndP fP szs) symL Lsym small seven sums pat (@lat_dep F P) PM PN).
  + by split=> // v vn; apply: (symmetry_permutes rndP fP szs o pr); rewrite mem_pms vn.
Qed.

Lemma lattice_sym3 B P R : same_lattice B P -> preserves B R <-> preserves P R.
Proof. by move=> s; split; [exact: same_preserves (same_sym s) | exact: same_preserves s]. Qed.

(* C105: whenever bravais_point_group returns, the result is the point group of the lattice *)
Theorem C105_group fuel B c tr ph G : row_free B -> bravais fuel B c 0 tr ph false = Some (Ok G) ->
  exists order, PropPointGroups.point_group tr ph (fun R => orthogonal R /\ preserves B R) order G /\
    forall g, List.In g G -> pU g = None.
Proof.
move=> fB; rewrite /bravais_square; case el: lll => [[[P T]|e]|] //.
have sl := lll_same el; have fP := same_free sl fB.
case ev: voronoi => [[V|e]|] //=.
case eb: bravais_group_3d => [gs|] //=; case ea: add_tr_ph => [gens|] //=; case: ifP => // /negbFE ck.
have [Rs [ok keys ns compl]] := space_generators fP ev eb ea ck.
have [order [f0 [G0 GP]]] := group_of3 fP ev ok keys ns compl.
case E: generate_group => [G'|] //= [eG]; subst G'.
have [E' PG UG] := GP _ (leq_maxr fuel f0).
have := generate_group_fuel_mono (leq_maxl fuel f0) E; rewrite E' => -[<-].
exists order; split=> //; apply: PropPointGroups.group_ext PG => R.
by rewrite (lattice_sym3 _ sl).
Qed.
Theorem C105_generators fuel B c tr ph G : row_free B -> bravais fuel B c 0 tr ph true = Some (Ok G) ->
  (forall g, List.In g G -> orthogonal (pR g) /\ preserves B (pR g)) /\
    forall R cc a, orthogonal R -> preserves B R -> (~~ tr -> cc = a) -> (~~ ph -> a = false) ->
      gen_by (@PointGroups.kmul F 3) (fun k => k \in map (@PointGroups.pkey F 3 n) G) (R, cc, a).
Proof.
move=> fB; rewrite /bravais_square; case el: lll => [[[P T]|e]|] //.
have sl := lll_same el; have fP := same_free sl fB.
case ev: voronoi => [[V|e]|] //=.
case eb: bravais_group_3d => [gs|] //=; case ea: add_tr_ph => [gens|] //=; case: ifP => // /negbFE ck -[<-].
have [Rs [ok keys ns compl]] := space_generators fP ev eb ea ck.
have [order [f0 [G0 GP]]] := group_of3 fP ev ok keys ns compl.
have [E PG UG] := GP _ (leqnn _).
have [_ _ mG _] := PG.
have mem g : List.In g (set_of (@pge_eq F 3 n) gens) -> orthogonal (pR g) /\ preserves P (pR g).
  move=> gs'; have gg := In_set_of gs'.
  have : PointGroups.pkey g \in PointGroups.flag_keys tr ph (- 1%:M :: Rs) by rewrite -keys; apply/PointGroups.In_keys; exists g.
  have one : orthogonal (1%:M : 'M[F]_3) /\ preserves P 1%:M by split; [rewrite /orthogonal trmx1 mulmx1 | exact: preserves1].
  rewrite /PointGroups.flag_keys !mem_cat => /or3P[/mapP[R + [-> _ _]]| |].
  - by rewrite inE => /orP[/eqP ->|/ok //]; split; [exact: orthogonalN1 | exact: preservesN1].
  - by case: (tr) => //; rewrite inE => /eqP [-> _ _].
  - by case: (ph) => //; rewrite inE => /eqP [-> _ _].
split=> [g /mem[o p]|R cc a o p t1 t2]; first by split=> //; exact/(lattice_sym3 _ sl).
have pl g : List.In g (set_of (@pge_eq F 3 n) gens) -> PointGroups.plain g.
  move=> gs'; have [og _] := mem g gs'; have [s _] := ns g (In_set_of gs').
  by rewrite /PointGroups.plain s andbT; case: (mulmx1_unit og).
have [_ _ mk] := PointGroups.plain_group (@ordP 3) pl E; apply/mk/mG; split=> //.
by split=> //; exact/(lattice_sym3 _ sl).
Qed.

(* ---- lattices with an orthogonal basis: it returns ---- *)
Lemma returns3 fuel P V gs fuel1 B c T : row_free P -> voronoi rnd (@argsort _) fuel P true 0 = Some (Ok V) ->
  let nb := take (size V)./2 [seq lattice_point P z | z <- V] in
  bravais_group_3d n cs sn nb = Ok gs -> (forall g, List.In g gs -> Branch3.sym nb (pR g)) ->
  lll rnd (@gs_coefficient F 3) near fuel1 B c = Some (Ok (P, T)) ->
  exists f0, forall fuel' tr ph generators, (f0 <= fuel')%N -> exists G, bravais fuel' B c 0 tr ph generators = Some (Ok G).
Proof.
move=> fP ev /= eG sy el; have [zs szs eV] := voronoiP fP rndP (@argsort_perm _) (@argsort_sorted _) ev.
have un := uniq_neighbors fP szs; have one : orthogonal (1%:M : 'M[F]_3) by rewrite /orthogonal trmx1 mulmx1.
have en : take (size V)./2 [seq lattice_point P z | z <- V] = neighbors P zs by rewrite eV half_pm.
have gn tr ph : exists2 gens, add_tr_ph tr ph None (inversion 3 None :: gs) = Ok gens &
    check_bravais_symmetry (neighbors P zs) gens.
  have [T' [eg' kT sT UT]] := PropPointGroups.add_tr_phP tr ph None (inversion 3 None :: gs).
  eexists; first exact: eg'.
  apply/(check_bravaisP un).
    apply: (PropPointGroups.In_flags (P := fun g => orthogonal (pR g))) => //; last by case: (T') kT => ? ? ? ? ? [/= -> _ _].
    by move=> g' [<-|/sy [] //]; exact: orthogonalN1.
  apply: (PropPointGroups.In_flags (P := fun g => forall v, v \in neighbors P zs -> act (pR g) v \in pms (neighbors P zs))).
  - move=> g' [<- v vn|/sy [_ +] v vn]; last by rewrite en; apply.
    by rewrite /= /act linearN /= trmx1 mulmxN mulmx1 pmsN mem_pms vn.
  - by move=> v vn; case: (T') kT => ? ? ? ? ? [/= -> _ _]; rewrite /act trmx1 mulmx1 mem_pms vn.
  - by move=> v vn; rewrite /= /act trmx1 mulmx1 mem_pms vn.
have H tr ph : exists f0, forall fuel', (f0 <= fuel')%N -> exists G, forall gens,
   add_tr_ph tr ph None (inversion 3 None :: gs) = Ok gens ->
   generate_group (@pge_eq F 3 n) (@pge_mul F 3 n) (@ord _) fuel' (set_of (@pge_eq F 3 n) gens) = Some G.
  have [gens eg' ck] := gn tr ph; rewrite -en in ck.
  have [Rs [ok keys ns compl]] := space_generators fP ev eG eg' ck.
  have [order [f0 [G GP]]] := group_of3 fP ev ok keys ns compl.
  by exists f0 => fuel' /GP [E _ _]; exists G => gens'; rewrite eg' => -[<-].
have [g1 h1] := H true true; have [g2 h2] := H true false; have [g3 h3] := H false true; have [g4 h4] := H false false.
exists (maxn (maxn fuel1 fuel) (maxn (maxn g1 g2) (maxn g3 g4))) => fuel' tr ph generators.
rewrite !geq_max => /andP[/andP[l1 l2] /andP[/andP[l3 l4] /andP[l5 l6]]].
rewrite /bravais_square (lll_mono l1 el) (voronoi_mono l2 ev) /= eG.
have [gens eg' ck] := gn tr ph; rewrite /= eg' en ck /=.
case: generators; first by eexists.
have [G /(_ _ eg') ->] : exists G, forall gens,
   add_tr_ph tr ph None (inversion 3 None :: gs) = Ok gens ->
   generate_group (@pge_eq F 3 n) (@pge_mul F 3 n) (@ord _) fuel' (set_of (@pge_eq F 3 n) gens) = Some G.
  by case: (tr) (ph) => [] []; [exact: h1|exact: h2|exact: h3|exact: h4].
by eexists.
Qed.

(* three pairwise orthogonal vectors *)
Section Box.
Local Notation cr := (@npcross F).
Variable nb : seq 'rV[F]_3.
Hypotheses (un : uniq nb) (three : size nb = 3%N).
Hypotheses (n0 : forall v, v \in nb -> v != 0) (perp : forall v w, v \in nb -> w \in nb -> v != w -> dot v w = 0).
Lemma third_one v w : v \in nb -> w \in nb -> exists t, [/\ t \in nb, t != v & t != w].
Proof.
move=> vn wn; have : has (fun t => (t != v) && (t != w)) nb.
  apply: contraT; rewrite -all_predC => /allP h.
  have : (size nb <= size [:: v; w])%N.
    by apply: uniq_leq_size => // t /h /=; rewrite negb_and !negbK !inE.
  by rewrite three.
by case/hasP=> t tn /andP[h1 h2]; exists t.
Qed.
Lemma box_half v : v \in nb -> Branch3.sym nb (half v).
Proof.
move=> vn; split; first exact: half_orth.
move=> w wn; have [->|wv] := eqVneq w v; first by rewrite half_axis mem_pms vn.
by rewrite half_perp ?n0 ?perp // 1?eq_sym // pmsN mem_pms wn.
Qed.
Lemma box_quart v a b : v \in nb -> a \in nb -> b \in nb -> v != a -> v != b -> a != b -> dot a a = dot b b -> Branch3.sym nb (quart v).
Proof.
move=> vn an bn va vb ab e; split; first exact: quart_orth.
have ins x y : y \in nb -> pm x y -> x \in pms nb by move=> yn [] ->; rewrite ?pmsN mem_pms yn.
move=> w wn; have [->|wv] := eqVneq w v; first by rewrite quart_axis mem_pms vn.
have : w \in [:: v; a; b].
  have u3 : uniq [:: v; a; b] by rewrite /= !inE negb_or va vb ab.
  have s3 : {subset [:: v; a; b] <= nb} by move=> t; rewrite !inE => /or3P[] /eqP ->.
  by have [_ h] := uniq_min_size u3 s3 (eq_leq three); rewrite h.
rewrite !inE (negbTE wv) /= => /orP[] /eqP ->.
  by apply: (ins _ b) => //; apply: quart_perp => //; first [exact: n0 | exact: perp].
by apply: (ins _ a) => //; apply: quart_perp => //; first [exact: n0 | exact: perp | by apply: perp; rewrite // eq_sym].
Qed.
Lemma box_cross a b : a \in nb -> b \in nb -> a != b -> dot a a = dot b b -> Branch3.sym nb (quart (cr a b)).
Proof.
move=> an bn ab e; have [v [vn va vb]] := third_one an bn.
have c0 : cr a b != 0 by apply: perp_npar; rewrite ?n0 ?perp.
have vE : v = (dot v (cr a b) / dot (cr a b) (cr a b)) *: cr a b by apply: parE => //; apply: perp_par; apply: perp.
have e3 : nb =i [:: v; a; b].
  have u3 : uniq [:: v; a; b] by rewrite /= !inE negb_or va vb ab.
  have s3 : {subset [:: v; a; b] <= nb} by move=> t; rewrite !inE => /or3P[] /eqP ->.
  by have [_ h] := uniq_min_size u3 s3 (eq_leq three) => t; rewrite h.
have [p1 p2] : dot (cr a b) a = 0 /\ dot (cr a b) b = 0 by rewrite dotC dot_crl dotC dot_crr.
split; first exact: quart_orth.
have ins x y : y \in nb -> pm x y -> x \in pms nb by move=> yn [] ->; rewrite ?pmsN mem_pms yn.
move=> w; rewrite e3 !inE => /or3P[] /eqP ->.
- by rewrite [X in act _ X]vE actZ quart_axis -vE mem_pms vn.
- by apply: (ins _ b) => //; apply: quart_perp => //; first [exact: n0 | exact: perp].
- by apply: (ins _ a) => //; apply: quart_perp => //; first [exact: n0 | exact: perp | by apply: perp; rewrite // eq_sym].
Qed.
Lemma box_sizes : [\/ [seq size S | S <- equals nb] = [:: 3]%N, [seq size S | S <- equals nb] = [:: 1; 2]%N |
  [seq size S | S <- equals nb] = [:: 1; 1; 1]%N].
Proof.
have := equals_size un; rewrite three.
have ne S : S \in equals nb -> (0 < size S)%N.
  by case/equalsP=> v vn ->; rewrite -has_predT; apply/hasP; exists v => //; rewrite mem_filter eqxx.
have so : sorted leq [seq size S | S <- equals nb] by exact: sizes_sorted.
have : all (fun k => 0 < k)%N [seq size S | S <- equals nb] by apply/allP=> k /mapP[S /ne h ->].
move: so; move: [seq size S | S <- equals nb] => l; case: l => [|x [|y [|z [|t l]]]] /=.
- by [].
- by rewrite addn0 => _ _ <-; constructor 1.
- move=> /andP[xy _] /and3P[x0 y0 _] e; have [-> ->] : x = 1%N /\ y = 2%N by lia.
  by constructor 2.
- move=> _ /and4P[x0 y0 z0 _] e; have [-> -> ->] : [/\ x = 1%N, y = 1%N & z = 1%N] by split; lia.
  by constructor 3.
- by move=> _ /and5P[x0 y0 z0 t0 _] e; exfalso; move: (sumn l) e => k; lia.
Qed.
Lemma box_group : exists2 gs, bravais_group_3d n cs sn nb = Ok gs & forall g, List.In g gs -> Branch3.sym nb (pR g).
Proof.
have h2 : forall g, List.In g [seq rot3 n cs sn 2%:R^-1 v | v <- nb] -> Branch3.sym nb (pR g).
  by move=> g /List.in_map_iff [v [<- /In_mem vn]]; rewrite (rot3_half n trig); exact: box_half.
rewrite /bravais_group_3d three /=; case: box_sizes => es; rewrite es /=.
- eexists; first by [].
  move=> g /List.in_map_iff [v [<- /In_mem vn]]; rewrite (rot3_quart n trig).
  have [a [an av _]] := third_one vn vn; have [b [bn bv ba]] := third_one vn an.
  apply: (@box_quart v a b) => //; rewrite 1?eq_sym //.
  have [S SE mS] : exists2 S, S \in equals nb & forall t, t \in nb -> t \in S.
    have := perm_mem (equals_perm un); case eE: (equals nb) es => [|S []] // _ h.
    by exists S => [|t]; rewrite ?mem_head // -h /= cats0.
  by apply: (equals_len SE); apply: mS.
- have [a [b [eS SE]]] : exists a b, nth [::] (equals nb) 1 = [:: a; b] /\ [:: a; b] \in equals nb.
    case eE: (equals nb) es => [|S0 [|[|a [|b []]] []]] // _; exists a, b; split=> //; by rewrite !inE eqxx orbT.
  rewrite eS /=; eexists; first by [].
  have [an bn] : a \in nb /\ b \in nb by split; apply: (equals_sub SE); rewrite !inE eqxx ?orbT.
  have ab : a != b by have := equals_uniq_set un SE; rewrite /= inE andbT.
  move=> g [<-|[<-|[<-|[]]]]; rewrite ?(rot3_half n trig) ?(rot3_quart n trig); [|exact: box_half..].
  by apply: box_cross => //; apply: (equals_len SE); rewrite !inE eqxx ?orbT.
- by eexists; first by [].
Qed.
End Box.

Let Rb := [comRingType of F].
Add Ring Rbr : (R_ring Rb).
(* the lattices with an orthogonal basis: primitive cubic, tetragonal and orthorhombic *)
Definition box B x y z := ortho x y z /\ forall w : 'rV[F]_3, in_lattice B w <-> exists i j k, w = comb i j k x y z.
Lemma boxC B x y z : box B x y z -> box B y z x.
Proof.
move=> [[[x0 y0 z0] [xy xz yz]] h]; split; first by split=> //; split=> //; rewrite dotC.
move=> w; rewrite h; split=> -[i [j [k ->]]].
  by exists j, k, i; rewrite /comb [RHS]addrC addrA.
by exists k, i, j; rewrite /comb addrC addrA.
Qed.
Lemma box_odd B x y z : box B x y z -> in_lattice B x /\ forall w, in_lattice B w -> x <> w *+ 2.
Proof.
move=> [[[x0 y0 z0] [xy xz yz]] h]; split; first by apply/h; exists 1, 0, 0; rewrite /comb !scale0r !addr0 scale1r.
move=> w /h [i [j [k ->]]] /(congr1 (fun t : 'rV[F]_3 => dot t x)).
rewrite -scaler_nat dotZl /comb !dotDl !dotZl (dotC y) xy (dotC z) xz !mulr0 !addr0 mulrA -[LHS]mul1r => /mulIf.
rewrite dot_eq0 => /(_ x0)/eqP; rewrite -[2%:R]/(2%:~R) -intrM -[1]/(1%:~R) (eqr_int F) => /eqP; lia.
Qed.
Lemma no_room (a b d p r : F) : a + b + d <= p -> p <= a -> r <= b -> 0 <= d -> 0 < r -> False.
Proof.
move=> h1 h2 h3 h4 h5; have : p + r + 0 <= p by apply: le_trans h1; apply: ler_add => //; exact: ler_add.
by rewrite addr0 ger_addl leNgt h5.
Qed.
Lemma sq_int (i : int) : i != 0 -> 1 <= (i ^+ 2)%:~R :> F.
Proof. by move=> i0; have : (1 : int) <= i ^+ 2 by [rewrite expr2; nia]; rewrite -(ler_int F). Qed.
Lemma box_min B x y z w : box B x y z -> in_lattice B w -> dot (x + w *+ 2) (x + w *+ 2) <= dot x x -> pm (x + w *+ 2) x.
Proof.
move=> [o h] /h [i [j [k ->]]]; have [[x0 y0 z0] _] := o.
have -> : x + comb i j k x y z *+ 2 = comb (1 + i *+ 2) (j *+ 2) (k *+ 2) x y z.
  by rewrite /comb !mulrnDl intrD !rmorphMn /= scalerDl scale1r -!scalerMnl -!addrA.
rewrite q_combz // => le; have [qx qy qz] := And3 (q_gt0 x0) (q_gt0 y0) (q_gt0 z0).
have sq (a : int) (t : 'rV[F]_3) : 0 <= (a ^+ 2)%:~R * dot t t :> F by rewrite mulr_ge0 ?dot_ge0 // ler0z sqr_ge0.
have big (a : int) (t : 'rV[F]_3) : a != 0 -> dot t t <= (a ^+ 2)%:~R * dot t t by move=> a0; rewrite ler_pemull ?dot_ge0 // sq_int.
have lx : dot x x <= ((1 + i *+ 2) ^+ 2)%:~R * dot x x by apply: big; lia.
have j0 : j *+ 2 = 0.
  apply/eqP/negPn/negP => /(big _ y) ly; exact: (no_room le lx ly (sq _ _) qy).
have k0 : k *+ 2 = 0.
  apply/eqP/negPn/negP => /(big _ z) ly; by move: le; rewrite addrAC => le; exact: (no_room le lx ly (sq _ _) qz).
move: le; rewrite j0 k0 /comb !scale0r expr0n !mul0r !addr0 => le.
have {le} : ((1 + i *+ 2) ^+ 2)%:~R <= 1 :> F by rewrite -(ler_pmul2r qx) mul1r.
rewrite -[1]/(1%:~R) ler_int expr2 => le.
have [->|->] : 1 + i *+ 2 = 1 \/ 1 + i *+ 2 = -1 by clear -le; nia.
  by left; rewrite scale1r.
by right; rewrite scaleN1r.
Qed.
Lemma q_step (v u : 'rV[F]_3) : dot (v + u *+ 2) (v + u *+ 2) = dot v v + (dot u u + dot v u) *+ 4.
Proof.
rewrite !mulrSr !mulr0n !dotDl !dotDr !dot0l !dot0r (dotC u v) !add0r.
by move: (dot v u) (dot u u) (dot v v) => a b d; ringm Rb.
Qed.
Lemma box_nb P zs x y z : row_free P -> shortest_set P zs -> box P x y z ->
  [/\ size (neighbors P zs) = 3%N, forall v, v \in neighbors P zs -> v != 0 &
    forall v w, v \in neighbors P zs -> w \in neighbors P zs -> v != w -> dot v w = 0].
Proof.
move=> fP szs bx; set nb := neighbors P zs; have un := uniq_neighbors fP szs; rewrite -/nb in un.
have nz v : v \in nb -> v != 0 by move=> vn; apply/eqP => e; have := nb_sign un vn vn; rewrite e oppr0 => /(_ erefl).
have d0 (r : 'rV[F]_3) : r *+ 2 = 0 -> r = 0 by rewrite -scaler_nat => /eqP; rewrite scaler_eq0 pnatr_eq0 => /eqP.
have by' := boxC bx; have bz := boxC by'.
have mem t t' t'' : box P t t' t'' -> exists2 r, r \in nb & pm t r.
  move=> b; have [h1 h2] := box_odd b.
  have : t \in pms nb by apply: (nb_all rndP fP szs) => // w; exact: box_min b.
  by rewrite mem_pms => /orP[tn|tn]; [exists t => //; left | exists (- t) => //; right; rewrite opprK].
have near' t t' t'' v : box P t t' t'' -> v \in nb -> pm v t \/ dot v t = 0.
  move=> b vn; have [[o hb] [h1 _]] := (b, box_odd b); have [[t0 _ _] [p1 p2 _]] := o.
  have [i [j [k e]]] := (hb v).1 (nb_lat vn); rewrite {2}e /comb !dotDl !dotZl (dotC t') p1 (dotC t'') p2 !mulr0 !addr0.
  have [->|i0] := eqVneq i 0; first by right; rewrite mul0r.
  have dv : dot v t = i%:~R * dot t t by rewrite e /comb !dotDl !dotZl (dotC t') p1 (dotC t'') p2 !mulr0 !addr0.
  left; have qt := q_gt0 t0.
  have step u : u != 0 -> in_lattice P u -> dot u u <= - dot v u -> v = - u.
    move=> u0 uL le; have : pm (v + u *+ 2) v.
      apply: (nb_min rndP fP szs vn uL); rewrite q_step ger_addl pmulrn_lle0 //.
      by rewrite -ler_subr_addr sub0r.
    case=> [/eqP|/eqP].
      by rewrite -subr_eq0 addrAC subrr add0r => /eqP/d0 e0; rewrite e0 eqxx in u0.
    by rewrite -subr_eq0 opprK addrAC -mulr2n -mulrnDl => /eqP/d0/eqP; rewrite addr_eq0 => /eqP.
  have [ip|im] := lerP 1 i.
    left; rewrite -[t]opprK; apply: step; rewrite ?oppr_eq0 //; first exact: in_latN.
    by rewrite dotNl !dotNr !opprK dv ler_pemull ?(ltW qt) // -[1]/(1%:~R) ler_int.
  right; apply: step => //; rewrite dv -mulNr ler_pemull ?(ltW qt) // -mulrNz -[1]/(1%:~R) ler_int.
  by clear -i0 im; lia.
have [x' xn px] := mem _ _ _ bx; have [y' yn py] := mem _ _ _ by'; have [z' zn pz] := mem _ _ _ bz.
have [[[x0 y0 z0] [xy xz yz]] hL] := bx.
have sgn v t r : v \in nb -> r \in nb -> pm v t -> pm t r -> v = r.
  move=> vn rn h1 h2; case: (pmT h1 h2) => // e; by have := nb_sign un rn vn e.
have pmd (a b a' b' : 'rV[F]_3) : pm a a' -> pm b b' -> dot a b = 0 -> dot a' b' = 0.
  by move=> /pmC [->|->] /pmC [->|->]; rewrite ?dotNl ?dotNr ?opprK // => e; rewrite e oppr0.
have e3 : nb =i [:: x'; y'; z'].
  move=> v; apply/idP/idP; last by rewrite !inE => /or3P[] /eqP ->.
  move=> vn; rewrite !inE.
  case: (near' _ _ _ v bx vn) => [h|ex]; first by rewrite (sgn _ _ _ vn xn h px) eqxx.
  case: (near' _ _ _ v by' vn) => [h|ey]; first by rewrite (sgn _ _ _ vn yn h py) eqxx orbT.
  case: (near' _ _ _ v bz vn) => [h|ez]; first by rewrite (sgn _ _ _ vn zn h pz) eqxx !orbT.
  by move: (nz v vn); rewrite (dec v (proj1 bx)) ex ey ez !mul0r !scale0r !addr0 eqxx.
have [dxy dxz dyz] := And3 (pmd _ _ _ _ px py xy) (pmd _ _ _ _ px pz xz) (pmd _ _ _ _ py pz yz).
have ne (a b : 'rV[F]_3) : a \in nb -> dot a b = 0 -> a != b.
  by move=> /nz an e; apply: contraNneq an => eb; rewrite -dot_eq0 {2}eb e.
split=> //.
  have u3 : uniq [:: x'; y'; z'] by rewrite /= !inE negb_or !ne.
  by have := uniq_size_uniq u3 (fun t => esym (e3 t)); rewrite (uniq_nb un) => /esym/eqP.
move=> v w; rewrite !e3 !inE => /or3P[] /eqP -> /or3P[] /eqP -> //; rewrite ?eqxx // => _; by rewrite // dotC.
Qed.

(* for every basis of such a lattice it returns *)
Theorem C105_box B c x y z : row_free B -> box B x y z -> 4%:R / 3%:R < c ->
  exists f0, forall fuel tr ph generators, (f0 <= fuel)%N -> exists G, bravais fuel B c 0 tr ph generators = Some (Ok G).
Proof.
move=> fB [o bx] c43; have [f1 [P [T [el [_ _ sl _]]]]] := PropLLL2.C104_lll rndP near_refl fB c43.
have fP := same_free sl fB; have [f2 [V ev]] := C58_terminates fP rndP (@argsort_perm _) (@argsort_sorted _) true 0.
have [zs szs eV] := voronoiP fP rndP (@argsort_perm _) (@argsort_sorted _) ev.
have bP : box P x y z by split=> // w; rewrite -bx; split; apply: same_in_lattice => //; exact: same_sym.
have en : take (size V)./2 [seq lattice_point P z | z <- V] = neighbors P zs by rewrite eV half_pm.
have [s3 n0 pp] := box_nb fP szs bP; have [gs eG sy] := box_group (uniq_nb (uniq_neighbors fP szs)) s3 n0 pp.
rewrite -en in eG sy; exact: (returns3 fP ev eG sy (el _ (leqnn _))).
Qed.
(* the cubic lattice, in any basis: the quarter turns are found *)
Lemma cubic_box : box 1%:M (delta_mx 0 0) (delta_mx 0 1) (delta_mx 0 (2%:R : 'I_3)).
Proof.
have dd (i j : 'I_3) : dot (delta_mx 0 i : 'rV[F]_3) (delta_mx 0 j) = (i == j)%:R.
  rewrite dot3 !mxE /=; case: i j => -[|[|[|]]] //= p [[|[|[|]]] //= p']; rewrite ?mulr1 ?mulr0 ?addr0 ?add0r //.
have d0 (i : 'I_3) : (delta_mx 0 i : 'rV[F]_3) != 0 by rewrite -dot_eq0 dd eqxx oner_eq0.
split; first by split; split=> //; rewrite dd.
move=> w; split=> [[z ->]|[i [j [k ->]]]].
  exists (z 0 0), (z 0 1), (z 0 2%:R); rewrite /lattice_point mulmx1 /comb; apply/rowP=> i; rewrite !mxE eqxx /=.
  by case: i => -[|[|[|]]] //= p; rewrite ?mulr1 ?mulr0 ?addr0 ?add0r; congr (_ _); congr (z _ _); exact: val_inj.
exists (\row_l (if l == 0 then i else if l == 1 then j else k)); rewrite /lattice_point mulmx1 /comb; apply/rowP=> l; rewrite !mxE eqxx /=.
by case: l => -[|[|[|]]] //= p; rewrite ?mulr1 ?mulr0 ?addr0 ?add0r.
Qed.
Lemma box_turn B x y z : box B x y z -> dot x x = dot y y -> preserves B (quart z).
Proof.
move=> [[[x0 y0 z0] [xy xz yz]] h] e.
have fw w : in_lattice B w -> in_lattice B (act (quart z) w).
  move=> /h [i [j [k ->]]]; apply/h; rewrite /comb !actD !actZ quart_axis.
  have [hx hy] : pm (act (quart z) x) y /\ pm (act (quart z) y) x.
    by split; apply: quart_perp => //; rewrite dotC.
  case: hx => ->; case: hy => ->.
  - by exists j, i, k; congr (_ + _); rewrite addrC.
  - by exists (- j), i, k; rewrite scalerN mulrNz scaleNr; congr (_ + _); rewrite addrC.
  - by exists j, (- i), k; rewrite scalerN mulrNz scaleNr; congr (_ + _); rewrite addrC.
  - by exists (- j), (- i), k; rewrite !scalerN !mulrNz !scaleNr; congr (_ + _); rewrite addrC.
move=> w; split; first exact: fw.
move=> /fw/fw/fw; rewrite -!act_mul.
by rewrite quart_sq // -mulmxA quart_sq // half_sq // /act trmx1 mulmx1.
Qed.
Example C105_cubic B c : same_lattice 1%:M B -> 4%:R / 3%:R < c -> exists fuel G,
  bravais fuel B c 0 false false false = Some (Ok G) /\ (quart (delta_mx 0 (2%:R : 'I_3)), false, false) \in map (@PointGroups.pkey F 3 n) G.
Proof.
move=> s c43; have fB : row_free B by apply: same_free s _; rewrite row_free_unit unitmx1.
have bx : box B (delta_mx 0 0) (delta_mx 0 1) (delta_mx 0 (2%:R : 'I_3)).
  have [o h] := cubic_box; split=> // w; rewrite -h; split; apply: same_in_lattice => //; exact: same_sym.
have [f0 /(_ f0 false false false (leqnn _)) [G E]] := C105_box fB bx c43; exists f0, G; split=> //.
have [order [[_ _ mG _] _]] := C105_group fB E; apply/mG; split=> //; split; first exact: quart_orth.
by apply: box_turn bx _; rewrite !dot3 !mxE /= ?mulr1 ?mulr0 ?addr0 ?add0r.
Qed.
End Exact3.

Print Assumptions C105_group.
Print Assumptions C105_generators.
Print Assumptions C105_box.
