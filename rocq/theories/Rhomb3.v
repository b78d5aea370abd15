(* The rhombohedral branch of bravais_group_3d: two sets of three vectors *)
From mathcomp Require Import all_ssreflect all_algebra zify.
From mathcomp Require Import complex.
From Verif Require Import Prelude PySet GroupGen GroupGenProofs GroupSpec PGE Spin Factories LinSpan NullSpec Complement RingTac.
From Verif Require PropFactories PropPointGroups.
From Verif Require Import Continuum PropContinuum LLL PropLLL CVP PropCVP PropVoronoi Bravais PropBravais PropBravais2 Bravais3 Space3 Branch3.

Set Implicit Arguments.
Unset Strict Implicit.
Unset Printing Implicit Defensive.
Import Order.TTheory GRing.Theory Num.Theory.
Local Open Scope ring_scope.

Section Rhomb.
Variable F : rcfType.
Let Rg := [comRingType of F].
Add Ring RrRh : (R_ring Rg).
Implicit Types (R A : 'M[F]_3) (a b u v w x y z : 'rV[F]_3) (S : seq 'rV[F]_3).
Local Notation q v := (dot v v).
Local Notation cr := (@npcross F).
Variable nb : seq 'rV[F]_3.
Hypothesis un : uniq (pms nb).
Hypothesis npar : forall u v, u \in nb -> v \in nb -> u != v -> cr u v != 0.
Local Notation sym := (Branch3.sym nb).
Variable Pr : 'M[F]_3 -> Prop.
Hypothesis PrM : forall A A', Pr A -> Pr A' -> Pr (A *m A').
Hypothesis PrN : Pr (- 1%:M).
Let PrO A : Pr A -> Pr (- A). Proof. exact: Pr_opp. Qed.
Hypothesis ncop : forall (D : seq 'rV[F]_3) x, uniq D -> {subset D <= nb} -> (3 < size D)%N -> (forall v, v \in D -> dot x v = 0) -> x = 0.
Let nz := @Branch3.nz F nb un.
Let pm_nb := @Branch3.pm_nb F nb un.
Let sym_class := @Branch3.sym_class F nb un.
Let line_inj := @Branch3.line_inj F nb un.
Let sym_single := @Branch3.sym_single F nb un.
Let same_sign := @Branch3.same_sign F Pr PrM PrN.

(* two sets of three that a threefold rotation permutes *)
Section Rhombohedral.
Variables (s : F) (n d : 'rV[F]_3).
Hypothesis es : s ^+ 2 = 3%:R / 4%:R.
Hypotheses (n0 : n != 0) (d0 : d != 0).
Local Notation T := (third s n).
Hypotheses (sT : sym T) (pT : Pr T) (sD : sym (half d)) (pD : Pr (half d)).
Let oT : orthogonal T. Proof. by case: sT. Qed.
Lemma T3 v : act T (act T (act T v)) = v.
Proof. by rewrite -!act_mul -mulmxA third_cube // act1. Qed.
Lemma Tn : act T n = n. Proof. exact: rot_axis. Qed.
Lemma Tdot v : dot (act T v) n = dot v n. Proof. by rewrite -{2}Tn dot_act. Qed.
Lemma pm_inj A u v : orthogonal A -> pm (act A u) (act A v) -> pm u v.
Proof. by move=> oA [/(act_inj oA) ->|]; [left | rewrite -actN => /(act_inj oA) ->; right]. Qed.

Lemma not_axis S p : S \in equals nb -> size S = 3%N -> p \in S -> cr n p != 0.
Proof.
move=> SE sz pS; apply/eqP => e; have uS := equals_uniq_set (uniq_nb un) SE.
have nn t : t \in nb -> cr n t = 0 -> t = p.
  move=> tn et; apply/eqP; apply: contraT => tp; have := npar tn (equals_sub SE pS) tp.
  by rewrite (par_trans n0) ?eqxx // crC ?et ?e oppr0.
have fp : pm (act T p) p by left; rewrite (@parE _ p n) ?actZ ?Tn // crC e oppr0.
(* the two others *)
have [r [r' [rS rS' rp rp' [rr all3]]]] : exists r r', [/\ r \in S, r' \in S, r != p, r' != p & r != r' /\ forall t, t \in S -> [\/ t = p, t = r | t = r']].
  case: (S) sz uS pS => [|a [|b [|c [|? ?]]]] //= _; rewrite !inE negb_or => /and3P[/andP[ab ac] bc _].
  case/or3P=> /eqP ->.
  - exists b, c; rewrite !inE !eqxx !orbT [b == a]eq_sym [c == a]eq_sym ab ac; split=> //; split=> // t.
    by rewrite !inE => /or3P[]/eqP ->; [constructor 1|constructor 2|constructor 3].
  - exists a, c; rewrite !inE !eqxx !orbT [c == b]eq_sym ab bc; split=> //; split=> // t.
    by rewrite !inE => /or3P[]/eqP ->; [constructor 2|constructor 1|constructor 3].
  - exists a, b; rewrite !inE !eqxx !orbT ac bc; split=> //; split=> // t.
    by rewrite !inE => /or3P[]/eqP ->; [constructor 2|constructor 3|constructor 1].
have pn := equals_sub SE pS; have rn := equals_sub SE rS; have rn' := equals_sub SE rS'.
have step t t' : t \in nb -> t' \in nb -> t != p -> t' != p -> t \in S -> (forall u, u \in S -> [\/ u = p, u = t | u = t']) -> pm (act T t) t'.
  move=> tn tn' tp tp' tS a3; have [w wS ew] := sym_class sT SE tS.
  case: (a3 w wS) => ww; rewrite {}ww in ew => //.
    by case/eqP: tp; exact: (line_inj oT tn pn ew fp).
  by case/eqP: tp; apply: nn => //; exact: third_line ew.
have h1 : pm (act T r) r' by exact: step.
have h2 : pm (act T r') r by apply: step => // u /all3 [->|->|->]; [constructor 1|constructor 3|constructor 2].
have h3 : pm r r'.
  by have := pmA T (pmT (pmA T h1) h2); rewrite T3 => h4; exact: pmT h4 h1.
by case/eqP: rr; exact: pm_nb.
Qed.
Definition orbit p := [:: p; act T p; act T (act T p)].
Lemma orbit_cover S p : S \in equals nb -> size S = 3%N -> p \in S ->
  [/\ {subset S <= pms (orbit p)}, {subset orbit p <= pms S} & uniq (pms (orbit p))].
Proof.
move=> SE sz pS; have c0 := not_axis SE sz pS; have p0 := nz (equals_sub SE pS).
have h : ~ pm (act T p) p by move=> /(third_line es n0) e; rewrite e eqxx in c0.
have h2 : ~ pm (act T (act T p)) p by move=> e; apply: h; apply: pmC; have := pmA T e; rewrite T3.
have T0 t : t != 0 -> act T t != 0 by move=> t0; rewrite -dot_eq0 dot_act // dot_eq0.
have uD : uniq (pms (orbit p)).
  apply: uniq_pms_cons => //; last apply: uniq_pms_cons; last apply: uniq_pms_cons => //.
  - by apply/in_pm => -[w]; rewrite !inE => /orP[]/eqP -> /pmC.
  - exact: T0.
  - by apply/in_pm => -[w]; rewrite inE => /eqP -> /pmC/(pm_inj oT).
  - exact: (T0 _ (T0 _ p0)).
have sub : {subset orbit p <= pms S}.
  move=> w; rewrite !inE => /or3P[]/eqP ->; first by rewrite mem_pms pS.
    by apply/in_pm; exact: sym_class.
  by rewrite -act_mul; apply/in_pm; apply: sym_class SE pS; exact: sym_mul.
by split=> //; apply: lines_cover => //; rewrite sz.
Qed.

(* the axis is preserved *)
Lemma axis_of m R : orthogonal R -> m != 0 -> cr n m = 0 -> cr n (act R m) = 0 -> pm (act R n) n.
Proof.
move=> o m0 e e'; apply: par_pm; last exact: dot_act.
have -> : act R n = (dot n m / q m) *: act R m by rewrite -actZ -(parE e m0).
by rewrite crZl crC e' oppr0 scaler0.
Qed.
Definition sum3 p := p + act T p + act T (act T p).
Lemma sum3E p : sum3 p = (3%:R * (dot p n / q n)) *: n. Proof. exact: third_sum. Qed.

Lemma sum_cases S p R : S \in equals nb -> size S = 3%N -> p \in S -> sym R ->
  pm (act R (sum3 p)) (sum3 p) \/
  (dot p (act T p) = 0 /\ exists2 c, c \in orbit p & pm (act R (sum3 p)) (sum3 p - c *+ 2)).
Proof.
move=> SE sz pS sR; have [cov sub uD] := orbit_cover SE sz pS; have oR := sR.1.
set e1 := act T p; set e2 := act T e1; set g := dot p e1.
have e0S : p \in orbit p by rewrite mem_head.
have e1S : e1 \in orbit p by rewrite !inE eqxx orbT.
have e2S : e2 \in orbit p by rewrite !inE eqxx !orbT.
have R3 t : t \in orbit p -> exists2 c, c \in orbit p & pm (act R t) c.
  move=> /sub/in_pm[w wS et]; have [w' w'S ew'] := sym_class sR SE wS.
  by have /in_pm[c cO ec] := cov _ w'S; exists c => //; exact: pmT (pmT (pmA R et) ew') ec.
have [a aO ea] := R3 p e0S; have [b bO eb] := R3 e1 e1S; have [c cO ec] := R3 e2 e2S.
have inj t t' u : t \in orbit p -> t' \in orbit p -> pm (act R t) u -> pm (act R t') u -> t = t'.
  move=> tO t'O et et'; have := pm_inj oR (pmT et (pmC et')); case=> // e.
  move: uD; rewrite cat_uniq => /and3P[_ /hasPn h _].
  have : t \in [seq - x | x <- orbit p] by rewrite e map_f.
  by move/h; rewrite /= tO.
have u3 : uniq (orbit p) by move: uD; rewrite cat_uniq => /andP[].
move: (u3); rewrite /= !inE negb_or -/e1 -/e2 => /and3P[/andP[n1 n2] n3 _].
have ab : a != b by apply: contraNneq n1 => h; rewrite h in ea; apply/eqP; exact: (inj _ _ b).
have ac : a != c by apply: contraNneq n2 => h; rewrite h in ea; apply/eqP; exact: (inj _ _ c).
have bc : b != c by apply: contraNneq n3 => h; rewrite h in eb; apply/eqP; exact: (inj _ _ c).
have g1 : dot e1 e2 = g by rewrite dot_act.
have g2 : dot p e2 = g by rewrite dotC /g -(dot_act e2 p oT) T3.
have G u v : u \in orbit p -> v \in orbit p -> u != v -> dot u v = g.
  rewrite !inE -/e1 -/e2 => /or3P[]/eqP -> /or3P[]/eqP ->; rewrite ?eqxx // => _; by rewrite // dotC.
have E : a + b + c = sum3 p.
  have ss (u v w : 'rV[F]_3) : u + v + w = \sum_(t <- [:: u; v; w]) t by rewrite !big_cons big_nil addr0 addrA.
  have ua : uniq [:: a; b; c] by rewrite /= !inE negb_or ab ac bc.
  have [||_ h] := @uniq_min_size _ [:: a; b; c] (orbit p) ua.
  - by move=> t; rewrite 3!inE => /or3P[]/eqP ->.
  - by [].
  by rewrite /sum3 !ss; apply: perm_big; apply: uniq_perm ua u3 h.
have zero t t' (u v : 'rV[F]_3) : dot t t' = g -> dot u v = g -> dot (act R t) (act R t') = - dot u v -> g = 0.
  by move=> h h'; rewrite dot_act // h h' => /eqP; rewrite -subr_eq0 opprK -mulr2n mulrn_eq0 => /eqP.
have RS : act R (sum3 p) = act R p + act R e1 + act R e2 by rewrite !actD.
have gab := G a b aO bO ab; have gac := G a c aO cO ac; have gbc := G b c bO cO bc.
have g0 := zero p e1 a b (erefl g) gab. have g0' := zero p e2 a c g2 gac. have g0'' := zero e1 e2 b c g1 gbc.
have L (u v w : 'rV[F]_3) : [/\ u + v - w = u + v + w - w *+ 2, u - v + w = u + v + w - v *+ 2 & - u + v + w = u + v + w - u *+ 2] /\
    [/\ u - v - w = - (u + v + w - u *+ 2), - u + v - w = - (u + v + w - v *+ 2) & - u - v + w = - (u + v + w - w *+ 2)].
  by do 2!split; apply: row3; rewrite !mulr2n !mxE; move: (u 0 0) (u 0 1) (u 0 2) (v 0 0) (v 0 1) (v 0 2) (w 0 0) (w 0 1) (w 0 2) => ? ? ? ? ? ? ? ? ?; ringm Rg.
have [[l1 l2 l3] [l4 l5 l6]] := L a b c.
rewrite RS; case: ea eb ec => e_a [] e_b [] e_c; rewrite e_a e_b e_c.
- by left; left; rewrite E.
- right; split; first by apply: g0'; rewrite e_a e_c dotNr.
  by exists c => //; left; rewrite -E.
- right; split; first by apply: g0; rewrite e_a e_b dotNr.
  by exists b => //; left; rewrite -E.
- right; split; first by apply: g0; rewrite e_a e_b dotNr.
  by exists a => //; right; rewrite -E.
- right; split; first by apply: g0; rewrite e_a e_b dotNl.
  by exists a => //; left; rewrite -E.
- right; split; first by apply: g0; rewrite e_a e_b dotNl.
  by exists b => //; right; rewrite -E.
- right; split; first by apply: g0'; rewrite e_a e_c dotNl.
  by exists c => //; right; rewrite -E.
- by left; right; rewrite -E !opprD.
Qed.

Lemma axis_fixed S S' R : S \in equals nb -> S' \in equals nb -> size S = 3%N -> size S' = 3%N -> S != S' -> sym R -> pm (act R n) n.
Proof.
move=> SE SE' sz sz' ne sR; have oR := sR.1.
have pick (X : seq 'rV[F]_3) : size X = 3%N -> exists p, p \in X by case: X => // p X _; exists p; rewrite mem_head.
have [p pS] := pick S sz; have [p' pS'] := pick S' sz'.
(* a set in the plane perpendicular to the axis *)
have flat X r : X \in equals nb -> size X = 3%N -> r \in X -> dot r n = 0 -> pm (act R n) n.
  move=> XE zX rX rn; have [cov sub uD] := orbit_cover XE zX rX; have rb := equals_sub XE rX.
  have c0 : cr r (act T r) != 0.
    have [w wX ew] := sym_class sT XE rX; have wb := equals_sub XE wX.
    have rw : r != w.
      apply/eqP => h; rewrite -h in ew; have := third_line es n0 ew => h'.
      by have := not_axis XE zX rX; rewrite h' eqxx.
    by apply: contraNneq (npar rb wb rw) => h; apply/eqP; apply: cr_pm0 (pm_refl r) ew h.
  have perp t : t \in X -> dot n t = 0.
    move=> /cov/in_pm[u uO et]; rewrite dotC; apply: pmdot et _.
    by move: uO; rewrite !inE => /or3P[]/eqP ->; rewrite ?Tdot.
  apply: (@axis_of (cr r (act T r))) => //.
    by apply: perp_par; rewrite dotC ?Tdot.
  have [w wX ew] := sym_class sR XE rX; have [t tX et] := sym_class (sym_mul sR sT) XE rX; rewrite act_mul in et.
  have h := cr_act oR ew et; apply: (cr_pm0 (pm_refl n) (pmC h)).
  by apply: perp_par; exact: perp.
have [/eqP pn|pn] := boolP (dot p n == 0); first exact: (flat S p).
have [/eqP pn'|pn'] := boolP (dot p' n == 0); first exact: (flat S' p').
have q0 : q n != 0 by rewrite dot_eq0.
have k0 r : dot r n != 0 -> 3%:R * (dot r n / q n) != 0.
  by move=> rn; rewrite !mulf_neq0 ?invr_eq0 ?pnatr_eq0.
have good r : dot r n != 0 -> pm (act R (sum3 r)) (sum3 r) -> pm (act R n) n.
  move=> rn h; apply: (@axis_of (sum3 r)) => //.
  - by rewrite sum3E scaler_eq0 negb_or k0.
  - by rewrite sum3E crZr crxx scaler0.
  - by apply: (cr_pm0 (pm_refl n) (pmC h)); rewrite sum3E crZr crxx scaler0.
have [h|[g0 [c cO ec]]] := sum_cases SE sz pS sR; first exact: (good p).
have [h|[g0' [c' cO' ec']]] := sum_cases SE' sz' pS' sR; first exact: (good p').
(* both are orthogonal *)
exfalso; set k := (3%:R * (dot p' n / q n)) / (3%:R * (dot p n / q n)).
have sE : sum3 p' = k *: sum3 p by rewrite !sum3E scalerA /k divfK // k0.
have Q r u : r \in nb -> dot r (act T r) = 0 -> u \in orbit r -> [/\ q u = q r, dot u (sum3 r) = q r & q (sum3 r) = q r *+ 3].
  move=> rb gr uO; have g1 : dot (act T r) (act T (act T r)) = 0 by rewrite dot_act.
  have g2 : dot r (act T (act T r)) = 0 by rewrite dotC -(dot_act _ _ oT) T3.
  have [h1 h2] : q (act T r) = q r /\ q (act T (act T r)) = q r by rewrite !dot_act.
  have [h3 h4 h5] : [/\ dot (act T r) r = 0, dot (act T (act T r)) r = 0 & dot (act T (act T r)) (act T r) = 0] by split; rewrite dotC.
  split.
  - by move: uO; rewrite !inE => /or3P[]/eqP ->.
  - move: uO; rewrite !inE => /or3P[]/eqP ->; rewrite /sum3 !dotDr.
    + by rewrite gr g2 !addr0.
    + by rewrite h3 h1 g1 add0r addr0.
    + by rewrite h4 h5 h2 !add0r.
  - by rewrite /sum3 !dotDl !dotDr gr g1 g2 h1 h2 h3 h4 h5 !addr0 !add0r !mulrS mulr0n addr0 addrA.
have pb := equals_sub SE pS; have pb' := equals_sub SE' pS'.
have [qc dc qs] := Q p c pb g0 cO; have [qc' dc' qs'] := Q p' c' pb' g0' cO'.
have kq : q p' = k ^+ 2 * q p.
  have : q p' *+ 3 = (k ^+ 2 * q p) *+ 3 by rewrite -qs' sE dotZl dotZr mulrA -expr2 qs mulrnAr.
  by move/eqP; rewrite -subr_eq0 -mulrnBl mulrn_eq0 /= subr_eq0 => /eqP.
have rel : pm (k *: sum3 p - c' *+ 2) (k *: (sum3 p - c *+ 2)).
  apply: pmC; apply: (@pmT _ _ _ (act R (sum3 p'))); last by rewrite -sE.
  by apply: pmC; rewrite sE actZ; case: ec => ->; [left | right]; rewrite ?scalerN ?opprK.
have e2 : (2%:R : F) != 0 by rewrite pnatr_eq0.
case: rel => h.
  have cc : c' = k *: c.
    by apply: (scalerI e2); move: h; rewrite scalerBr => /addrI/oppr_inj; rewrite !scaler_nat scalerMnr.
  have [covS subS _] := orbit_cover SE sz pS; have [covS' subS' _] := orbit_cover SE' sz' pS'.
  have /in_pm[w wS ew] := subS c cO; have /in_pm[w' wS' ew'] := subS' c' cO'.
  have ww : w != w'.
    by apply: contraNneq ne => h'; apply/eqP; apply: (equals_disjoint SE SE' wS); rewrite h'.
  have := npar (equals_sub SE wS) (equals_sub SE' wS') ww.
  by rewrite (cr_pm0 ew ew') ?eqxx // cc crZr crxx scaler0.
have h2 : k *: sum3 p = c' + k *: c.
  have L (X Y Z : 'rV[F]_3) : X - Y *+ 2 = - (X - Z *+ 2) -> 2%:R *: X = 2%:R *: (Y + Z).
    move=> e; rewrite !scaler_nat mulrnDl; move/eqP: e; rewrite -subr_eq0 opprK addrACA -opprD subr_eq0 => /eqP <-.
    by rewrite mulr2n.
  by apply: (scalerI e2); apply: L; rewrite h scalerBr scalerMnr.
have : dot (k *: sum3 p) (sum3 p') = dot (c' + k *: c) (sum3 p') by rewrite h2.
rewrite dotDl dc' -sE qs' dotZl {1}sE dotZr dc kq mulrA -expr2 => /eqP.
rewrite -mulr2n -subr_eq0 -mulrnBr // mulr1n mulf_eq0 expf_eq0 /= => /orP[/eqP k1|/eqP p1].
  have := k0 p' pn'; rewrite /k in k1; move/eqP: k1; rewrite mulf_eq0 invr_eq0 (negPf (k0 p pn)) orbF => ->.
  by [].
by have := nz pb; rewrite -dot_eq0 p1 eqxx.
Qed.
Lemma turn_back X p R : (forall A, sym A -> pm (act A n) n) -> X \in equals nb -> size X = 3%N -> p \in X -> dot p n != 0 -> sym R ->
  exists2 B, [\/ B = R, B = T *m R | B = T *m (T *m R)] & (act B n = n /\ act B p = p) \/ (act B n = - n /\ act B p = - p).
Proof.
move=> ax XE zX pX pn sR; have [cov sub _] := orbit_cover XE zX pX.
suff [B [eB sB pB]] : exists B, [/\ [\/ B = R, B = T *m R | B = T *m (T *m R)], sym B & pm (act B p) p].
  exists B => //; have oB := sB.1; have := dot_act p n oB.
  case: pB (ax B sB) => -> [] ->; rewrite ?dotNl ?dotNr ?opprK => h; [by left | | | by right];
  by case/eqP: pn; apply/eqP; move/eqP: h; rewrite -subr_eq0 -opprD oppr_eq0 -mulr2n mulrn_eq0.
have [w wX ew] := sym_class sR XE pX; have /in_pm[t tO et] := cov w wX.
have e := pmT ew et; move: tO; rewrite !inE => /or3P[]/eqP ht; rewrite ht in e.
- by exists R; split=> //; constructor 1.
- exists (T *m (T *m R)); split; [by constructor 3 | by do 2!apply: sym_mul => //|].
  by rewrite !act_mul -{2}(T3 p); do 2!apply: pmA.
- exists (T *m R); split; [by constructor 2 | exact: sym_mul |].
  by rewrite act_mul -{2}(T3 p); apply: pmA.
Qed.
Lemma not_one (m : 'rV[F]_3) : m != 0 -> half m <> 1%:M.
Proof.
move=> m0 e; have z v : dot m v = 0 -> v = 0.
  move=> mv; have := half_perp m0 mv; rewrite e act1 => /eqP.
  by rewrite -addr_eq0 -mulr2n -scaler_nat scaler_eq0 pnatr_eq0 => /eqP.
have c v : cr m v = 0 by apply: z; exact: dot_crl.
have : cr (delta_mx 0 0 : 'rV[F]_3) (delta_mx 0 1) = 0 by apply: (par_trans m0); rewrite crC c oppr0.
move/matrixP/(_ 0 2); rewrite !mxE /= !(mulr0, mulr1, subr0, mul0r) => /eqP; by rewrite oner_eq0.
Qed.
Lemma b_rhomb S S' R : S \in equals nb -> S' \in equals nb -> size S = 3%N -> size S' = 3%N -> S != S' -> sym R -> Pr R.
Proof.
move=> SE SE' sz sz' ne sR; have ax A : sym A -> pm (act A n) n by exact: (axis_fixed SE SE').
have [X [p [XE zX pX pn]]] : exists X p, [/\ X \in equals nb, size X = 3%N, p \in X & dot p n != 0].
  have [/hasP[p pS pn]|h] := boolP (has (fun p => dot p n != 0) S); first by exists S, p.
  have [/hasP[p pS pn]|h'] := boolP (has (fun p => dot p n != 0) S'); first by exists S', p.
  exfalso; case/eqP: n0; apply: (ncop (D := S ++ S')).
  - rewrite cat_uniq !(equals_uniq_set (uniq_nb un)) // andbT /=; apply/hasPn => v vS'; apply: contra ne => vS.
    by apply/eqP; exact: (equals_disjoint SE SE' vS vS').
  - by move=> v; rewrite mem_cat => /orP[]; exact: equals_sub.
  - by rewrite size_cat sz sz'.
  - move=> v; rewrite mem_cat dotC => /orP[] vS; [move/hasPn: h | move/hasPn: h'] => /(_ v vS); by rewrite negbK => /eqP.
have c0 := not_axis XE zX pX.
have pm1 : Pr (half (cr n p)).
  have [B eB sgn] := turn_back ax XE zX pX pn sD.
  have oB : orthogonal B by case: eB => ->; [exact: half_orth | apply: orthogonal_mul => //; exact: half_orth | do 2!apply: orthogonal_mul => //; exact: half_orth].
  have pB : Pr B by case: eB => -> //; do ?apply: PrM.
  have T1 : T <> 1%:M.
    by move=> e; case/eqP: c0; apply: (third_line es n0); left; rewrite e act1.
  have TT : T *m (T *m T) = 1%:M by exact: third_cube.
  have DD : half d *m half d = 1%:M by exact: half_sq.
  have B1 : B <> 1%:M /\ B <> - 1%:M.
    suff H e : e * e = 1 -> B = e *: 1%:M -> False.
      by split=> h; [apply: (H 1) | apply: (H (-1))]; rewrite ?mulr1 ?mulrNN ?mulr1 ?scale1r ?scaleN1r.
    move=> ee; case: eB => -> h.
    - have h1 : e *: d = d by rewrite -{2}(half_axis d) h /act linearZ /= trmx1 -scalemxAr mulmx1.
      move/eqP: h1; rewrite -{2}[d]scale1r -subr_eq0 -scalerBl scaler_eq0 (negPf d0) orbF subr_eq0 => /eqP e1.
      by apply: (not_one d0); rewrite h e1 scale1r.
    - have hD : half d = e *: (T *m T).
        by rewrite -[LHS]mul1mx -TT (mulmxA T T T) -mulmxA h -scalemxAr mulmx1.
      apply: T1; move: DD; rewrite hD -scalemxAl -scalemxAr scalerA ee scale1r.
      by rewrite -mulmxA TT mulmx1.
    - have hD : half d = e *: T.
        by rewrite -[LHS]mul1mx -TT -!mulmxA h -scalemxAr mulmx1.
      have TT2 : T *m T = 1%:M by move: DD; rewrite hD -scalemxAl -scalemxAr scalerA ee scale1r.
      by apply: T1; move: TT; rewrite TT2 mulmx1.
  have ec : pm (act B (cr n p)) (cr n p) by apply: cr_act => //; case: sgn => -[h1 h2]; by [left | right].
  have [eu ev] : act (half (cr n p)) n = - n /\ act (half (cr n p)) p = - p by rewrite !half_perp // dotC ?dot_crl ?dot_crr.
  case: sgn ec => -[h1 h2] [] h3.
  - by case: B1.1; apply: (ext3 c0); rewrite ?act1.
  - by apply: (Pr_oppE PrM PrN); rewrite -(_ : B = - half (cr n p)) //; apply: (ext3 c0); rewrite actNM ?half_axis ?eu ?ev ?opprK.
  - by rewrite -(_ : B = half (cr n p)) //; apply: (ext3 c0); rewrite ?half_axis ?eu ?ev.
  - by case: B1.2; apply: (ext3 c0); rewrite actNM act1.
have [B eB sgn] := turn_back ax XE zX pX pn sR.
have oB : orthogonal B by case: eB => ->; [exact: sR.1 | apply: orthogonal_mul => //; exact: sR.1 | do 2!apply: orthogonal_mul => //; exact: sR.1].
have pB : Pr B by exact: (same_sign c0 oB).
by case: eB pB => -> // h; [exact: (third_back PrM es n0 pT h) | apply: (third_back PrM es n0 pT); exact: (third_back PrM es n0 pT h)].
Qed.
End Rhombohedral.
End Rhomb.
