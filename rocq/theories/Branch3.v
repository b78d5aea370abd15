(* The symmetries of a set of neighbouring vectors in space: the sets of equivalent vectors
   and one lemma for each branch of bravais_group_3d *)
From mathcomp Require Import all_ssreflect all_algebra zify.
From mathcomp Require Import complex.
From Verif Require Import Prelude PySet GroupGen GroupGenProofs GroupSpec PGE Spin Factories LinSpan NullSpec Complement RingTac.
From Verif Require PropFactories PropPointGroups.
From Verif Require Import Continuum PropContinuum LLL PropLLL CVP PropCVP PropVoronoi Bravais PropBravais PropBravais2 Bravais3 Space3.

Set Implicit Arguments.
Unset Strict Implicit.
Unset Printing Implicit Defensive.
Import Order.TTheory GRing.Theory Num.Theory.
Local Open Scope ring_scope.

(* ---- the sets of equivalent vectors ---- *)
Section Equals.
Variables (F : rcfType) (d : nat).
Implicit Types (v w : 'rV[F]_d) (vs S : seq 'rV[F]_d).
Lemma append_atE (K V : eqType) (dict : seq (K * seq V)) (k : K) (v : V) : uniq (map fst dict) ->
  append_at dict k v = if k \in map fst dict then [seq (kv.1, if kv.1 == k then rcons kv.2 v else kv.2) | kv <- dict]
                       else rcons dict (k, [:: v]).
Proof.
elim: dict => //= -[k' s] dict IH /= /andP[kn u]; rewrite inE; case: (eqVneq k k') => [e|ne] /=.
  congr (_ :: _); rewrite -[LHS]map_id; apply/eq_in_map => -[k1 s1] h /=.
  case: eqP => // e1; move: kn; rewrite -e -e1 => /negP; case; exact: (map_f fst h).
by rewrite IH //; case: ifP => _.
Qed.
Definition class_of vs v : seq 'rV[F]_d := [seq w <- vs | signature vs w == signature vs v].
Lemma equals_classes vs : exists ks, [/\ uniq ks, ks =i [seq signature vs v | v <- vs] &
  equals vs = sort (fun a b => size a <= size b)%N [seq [seq w <- vs | signature vs w == k] | k <- ks]].
Proof.
rewrite /equals; set sg := signature vs.
suff H (l : seq 'rV[F]_d) : exists ks, [/\ uniq ks, ks =i [seq sg v | v <- l] &
    foldl (fun dict v => append_at dict (sg v) v) [::] l = [seq (k, [seq w <- l | sg w == k]) | k <- ks]].
  by have [ks [u m e]] := H vs; exists ks; split=> //; rewrite e -map_comp.
elim/last_ind: l => [|l v [ks [u m e]]]; first by exists [::].
have k1 : map fst [seq (k, [seq w <- l | sg w == k]) | k <- ks] = ks by rewrite -map_comp map_id.
rewrite -cats1 foldl_cat /= e append_atE k1 // cats1; case: ifP => h.
  exists ks; split=> // [x|].
    by rewrite map_rcons mem_rcons inE m; case: eqP => //= ->; rewrite -m h.
  rewrite -map_comp; apply: eq_map => k /=; congr (_, _); rewrite filter_rcons eq_sym.
  by case: ifP.
exists (rcons ks (sg v)); split=> [|x|].
- by rewrite rcons_uniq h.
- by rewrite map_rcons !mem_rcons !inE m.
rewrite map_rcons filter_rcons eqxx; congr (rcons _ (_, _)).
  apply/eq_in_map => k hk; rewrite filter_rcons; case: eqP => // ek.
  by move: h; rewrite ek hk.
rewrite (_ : [seq w <- l | sg w == sg v] = [::]) //; apply/eqP; rewrite -[_ == _]negbK -has_filter; apply/hasP => -[w wl /eqP ew].
by move: h; rewrite -ew m (map_f sg wl).
Qed.
Lemma equals_in vs v : v \in vs -> class_of vs v \in equals vs.
Proof.
move=> vv; have [ks [_ m ->]] := equals_classes vs; rewrite mem_sort; apply/mapP.
by exists (signature vs v); rewrite // m map_f.
Qed.
Lemma equalsP vs S : S \in equals vs -> exists2 v, v \in vs & S = class_of vs v.
Proof.
have [ks [_ m ->]] := equals_classes vs; rewrite mem_sort => /mapP[k]; rewrite m => /mapP[v vv ->] ->.
by exists v.
Qed.
Lemma equals_uniq vs : uniq (equals vs).
Proof.
have [ks [u m ->]] := equals_classes vs; rewrite sort_uniq map_inj_in_uniq // => k k'; rewrite !m => /mapP[v vv ->] _ e.
have : v \in [seq w <- vs | signature vs w == signature vs v] by rewrite mem_filter eqxx.
by rewrite e mem_filter => /andP[/eqP].
Qed.
Lemma equals_disjoint vs S S' v : S \in equals vs -> S' \in equals vs -> v \in S -> v \in S' -> S = S'.
Proof.
move=> /equalsP[w ww ->] /equalsP[w' ww' ->]; rewrite !mem_filter => /andP[/eqP e1 _] /andP[/eqP e2 _].
by rewrite /class_of -e1 -e2.
Qed.
Lemma equals_sub vs S v : S \in equals vs -> v \in S -> v \in vs.
Proof. by move=> /equalsP[w _ ->]; rewrite mem_filter => /andP[]. Qed.
Lemma equals_len vs S v w : S \in equals vs -> v \in S -> w \in S -> dot v v = dot w w.
Proof.
move=> /equalsP[x _ ->]; rewrite !mem_filter => /andP[/eqP e1 _] /andP[/eqP e2 _].
by apply: (signature_q (vs := vs)); rewrite e1 e2.
Qed.
Lemma equals_uniq_set vs S : uniq vs -> S \in equals vs -> uniq S.
Proof. by move=> u /equalsP[x _ ->]; rewrite filter_uniq. Qed.

(* a symmetry maps every set to itself, up to signs *)
Definition permutes3 (nb : seq 'rV[F]_d) (R : 'M[F]_d) := forall v, v \in nb -> act R v \in pms nb.
Variable nb : seq 'rV[F]_d.
Hypothesis un : uniq (pms nb).
Lemma uniq_nb : uniq nb. Proof. by move: un; rewrite cat_uniq => /andP[]. Qed.
Lemma nb_sign v w : v \in nb -> w \in nb -> w = - v -> false.
Proof.
move=> vn wn e; move: un; rewrite cat_uniq => /and3P[_ /hasPn h _].
have hw : w \in [seq - x | x <- nb] by rewrite e map_f.
by have := h w hw; rewrite /= wn.
Qed.
Lemma symmetry_class R S v : orthogonal R -> permutes3 nb R -> S \in equals nb -> v \in S -> act R v \in pms S.
Proof.
move=> o pr SE vS; pose f t := if act R t \in nb then act R t else - act R t.
have fn t : t \in nb -> f t \in nb by move=> /pr; rewrite mem_pms /f; case: ifP.
have fi : {in nb &, injective f}.
  move=> t t' tn tn'; rewrite /f; do 2![case: ifP => _] => e; first exact: act_inj o _ _ e.
  - by rewrite -actN in e; have := act_inj o e => e'; have := nb_sign tn' tn e'.
  - by rewrite -actN in e; have := act_inj o e => e'; have := nb_sign tn tn' (esym e').
  by move/oppr_inj: e => /(act_inj o).
have pf : perm_eq (map f nb) nb.
  have u1 : uniq (map f nb) by rewrite map_inj_in_uniq // uniq_nb.
  have sub : {subset map f nb <= nb} by move=> x /mapP[t tn ->]; apply: fn.
  have [|_ e] := uniq_min_size u1 sub; first by rewrite size_map.
  exact: uniq_perm u1 uniq_nb e.
have ov t t' : overlap (f t) (f t') = overlap t t'.
  by rewrite /overlap /f; do 2![case: ifP => _]; rewrite ?dotNl ?dotNr ?normrN ?opprK dot_act.
have qf t : dot (f t) (f t) = dot t t by rewrite /f; case: ifP => _; rewrite ?dotNl ?dotNr ?opprK dot_act.
have vn := equals_sub SE vS.
have es : signature nb (f v) = signature nb v.
  apply: signature_perm; first exact: qf.
  rewrite perm_sym; have -> : [seq (dot t t, overlap v t) | t <- nb] = [seq (dot t t, overlap (f v) t) | t <- map f nb].
    by rewrite -map_comp; apply: eq_map => t /=; rewrite qf ov.
  exact: perm_map.
have : f v \in S.
  have [x _ eS] := equalsP SE; move: vS; rewrite eS !mem_filter => /andP[/eqP e _].
  by rewrite es e eqxx fn.
by rewrite mem_pms /f; case: ifP => _ ->; rewrite ?orbT.
Qed.
End Equals.

(* ---- the symmetries of the neighbours, branch by branch ---- *)
Section Branches.
Variable F : rcfType.
Let Rg := [comRingType of F].
Add Ring RrB : (R_ring Rg).
Implicit Types (R A : 'M[F]_3) (a b u v w x y z : 'rV[F]_3) (S : seq 'rV[F]_3).
Local Notation q v := (dot v v).
Local Notation cr := (@npcross F).
Variable nb : seq 'rV[F]_3.
Hypothesis un : uniq (pms nb).
(* no two are parallel *)
Hypothesis npar : forall u v, u \in nb -> v \in nb -> u != v -> cr u v != 0.
Definition sym R := orthogonal R /\ permutes3 nb R.
Variable Pr : 'M[F]_3 -> Prop.
Hypothesis PrM : forall A A', Pr A -> Pr A' -> Pr (A *m A').
Hypothesis PrN : Pr (- 1%:M).
Let PrO A : Pr A -> Pr (- A). Proof. exact: Pr_opp. Qed.

Lemma nz v : v \in nb -> v != 0.
Proof. by move=> vn; apply/eqP => v0; have := nb_sign un vn vn; rewrite v0 oppr0 => /(_ erefl). Qed.
Lemma pm_nb u v : u \in nb -> v \in nb -> pm u v -> u = v.
Proof. by move=> hu hv [//|e]; have := nb_sign un hv hu e. Qed.
Lemma sym_mul R A : sym R -> sym A -> sym (R *m A).
Proof.
move=> [o p] [o' p']; split=> [|v vn]; first exact: orthogonal_mul.
rewrite act_mul; have /in_pm[w wn e] := p' v vn; have /in_pm[t tn e'] := p w wn.
by apply/in_pm; exists t => //; exact: pmT (pmA R e) e'.
Qed.
Lemma sym_class R S v : sym R -> S \in equals nb -> v \in S -> exists2 w, w \in S & pm (act R v) w.
Proof. by move=> [o p] SE vS; apply/in_pm; apply: (symmetry_class un o p SE vS). Qed.
Lemma sym_nb R v : sym R -> v \in nb -> exists2 w, w \in nb & pm (act R v) w.
Proof. by move=> [o p] vn; apply/in_pm; exact: p. Qed.
Lemma line_inj R u v w : orthogonal R -> u \in nb -> v \in nb -> pm (act R u) w -> pm (act R v) w -> u = v.
Proof.
move=> o hu hv e1 e2; apply: pm_nb => //; case: (pmT e1 (pmC e2)) => [/(act_inj o) ->|]; first by left.
by rewrite -actN => /(act_inj o) ->; right.
Qed.
Lemma sym_single R a : sym R -> [:: a] \in equals nb -> pm (act R a) a.
Proof. by move=> sR aE; have [w] := sym_class sR aE (mem_head _ _); rewrite inE => /eqP ->. Qed.
Lemma single_nb a : [:: a] \in equals nb -> a \in nb. Proof. by move/equals_sub; apply; rewrite mem_head. Qed.

(* two vectors that every symmetry preserves *)
Lemma b_singles a b R : [:: a] \in equals nb -> [:: b] \in equals nb -> a != b -> sym (half a) ->
  Pr (half a) -> Pr (half b) -> sym R -> Pr R.
Proof.
move=> aE bE ab sa pa pb sR; have [an bn] := (single_nb aE, single_nb bE); have [a0 b0] := (nz an, nz bn).
have [d|d] := half_line a0 (sym_single sa bE); last by have := npar an bn ab; rewrite d eqxx.
by apply: (in_diag3 PrM PrN a0 b0 d sR.1 pa pb); exact: sym_single.
Qed.

(* two vectors that are exchanged by a fourfold rotation *)
Lemma b_pair a b R : [:: a; b] \in equals nb -> sym (half a) -> Pr (half a) -> Pr (half b) -> Pr (quart (cr a b)) -> sym R -> Pr R.
Proof.
move=> E sa pa pb p4 sR.
have [aS bS] : a \in [:: a; b] /\ b \in [:: a; b] by rewrite !inE !eqxx orbT.
have [an bn] := (equals_sub E aS, equals_sub E bS); have [a0 b0] := (nz an, nz bn).
have ab : a != b by have := equals_uniq_set (uniq_nb un) E; rewrite /= inE => /andP[].
have c0 := npar an bn ab.
have rb A : sym A -> pm (act A a) a -> pm (act A b) b.
  move=> sA ea; have [w] := sym_class sA E bS; rewrite !inE => /orP[]/eqP -> // eb.
  by case/eqP: ab; exact: (line_inj sA.1 an bn ea eb).
have d : dot a b = 0.
  have [//|d] := half_line a0 (rb _ sa (or_introl (half_axis a))).
  by rewrite d eqxx in c0.
have e : q a = q b by exact: (equals_len E aS bS).
have ca : pm (act (quart (cr a b)) b) a.
  by apply: quart_perp => //; rewrite dotC ?dot_crl ?dot_crr.
have [w] := sym_class sR E aS; rewrite !inE => /orP[]/eqP -> ew.
  exact: (in_diag3 PrM PrN a0 b0 d sR.1 pa pb ew (rb R sR ew)).
apply: (quart_back PrM c0 p4).
have o : orthogonal (quart (cr a b) *m R) by apply: orthogonal_mul; [exact: quart_orth | case: sR].
have ea : pm (act (quart (cr a b) *m R) a) a by rewrite act_mul; apply: pmT (pmA _ ew) ca.
have cb : pm (act (quart (cr a b)) a) b.
  by apply: quart_perp => //; rewrite dotC ?dot_crl ?dot_crr.
have [w'] := sym_class sR E bS; rewrite !inE => /orP[]/eqP -> ew'; last first.
  by case/eqP: ab; exact: (line_inj sR.1 an bn ew ew').
by apply: (in_diag3 PrM PrN a0 b0 d o pa pb ea); rewrite act_mul; apply: pmT (pmA _ ew') cb.
Qed.

(* three vectors that are exchanged by fourfold rotations *)
Lemma b_triple a b c R : [:: a; b; c] \in equals nb -> sym (quart a) -> sym (quart b) ->
  Pr (quart a) -> Pr (quart b) -> Pr (quart c) -> sym R -> Pr R.
Proof.
move=> E sa sb pa pb pc sR.
have [aS bS cS] : [/\ a \in [:: a; b; c], b \in [:: a; b; c] & c \in [:: a; b; c]] by rewrite !inE !eqxx !orbT.
have [an bn cn] := And3 (equals_sub E aS) (equals_sub E bS) (equals_sub E cS); have [a0 b0 c0] := And3 (nz an) (nz bn) (nz cn).
have [ab ac bc] : [/\ a != b, a != c & b != c].
  by have := equals_uniq_set (uniq_nb un) E; rewrite /= !inE negb_or => /and3P[/andP[-> ->] -> _].
(* the fourfold rotation about one of them exchanges the two others *)
have sw x y z : x \in nb -> y \in nb -> z \in nb -> x != y -> x != z -> y != z -> [:: a; b; c] =i [:: x; y; z] -> sym (quart x) -> dot x y = 0.
  move=> xn yn zn xy xz yz eS s4; have x0 := nz xn.
  have [yS zS] : y \in [:: a; b; c] /\ z \in [:: a; b; c] by rewrite !eS !inE !eqxx !orbT.
  have fx := or_introl (quart_axis x) : pm (act (quart x) x) x.
  have nx t : t \in nb -> x != t -> ~ pm (act (quart x) t) x.
    by move=> tn xt e; case/eqP: xt; exact: (line_inj s4.1 xn tn fx e).
  have no t : t \in nb -> x != t -> pm (act (half x) t) t -> dot x t = 0.
    by move=> tn xt /(half_line x0)[//|d]; have := npar xn tn xt; rewrite d eqxx.
  apply: no => //; rewrite -quart_sq // act_mul.
  have [w] := sym_class s4 E yS; rewrite eS !inE => /or3P[]/eqP -> ew.
  - by case: (nx y).
  - exact: pmT (pmA _ ew) ew.
  have [w'] := sym_class s4 E zS; rewrite eS !inE => /or3P[]/eqP -> ew'.
  - by case: (nx z).
  - exact: pmT (pmA _ ew) ew'.
  - by case/eqP: yz; exact: (line_inj s4.1 yn zn ew ew').
have dab : dot a b = 0 by apply: (sw a b c).
have dac : dot a c = 0.
  by apply: (sw a c b) => //; [rewrite eq_sym | move=> t; rewrite !inE; congr (_ || _); rewrite orbC].
have dbc : dot b c = 0.
  apply: (sw b c a) => //; rewrite 1?eq_sym // => t; rewrite !inE; by case: (t == a) (t == b) (t == c) => [] [] [].
have [eab eac] : q a = q b /\ q a = q c by split; [exact: (equals_len E aS bS) | exact: (equals_len E aS cS)].
have cab : pm (act (quart c) b) a by apply: quart_perp; rewrite // dotC.
have bca : pm (act (quart b) c) a by apply: quart_perp; rewrite // 1?dotC // -eac.
have abc : pm (act (quart a) c) b by apply: quart_perp; rewrite // 1?dotC // -eac.
have ha := quart_half PrM a0 pa; have hb := quart_half PrM b0 pb.
(* the first one is preserved *)
have H1 A : orthogonal A -> pm (act A a) a -> pm (act A b) b \/ pm (act A b) c -> Pr A.
  move=> oA ea [eb|ec]; first exact: (in_diag3 PrM PrN a0 b0 dab oA ha hb ea eb).
  apply: (quart_back PrM a0 pa); have o : orthogonal (quart a *m A) by apply: orthogonal_mul => //; exact: quart_orth.
  apply: (in_diag3 PrM PrN a0 b0 dab o ha hb); rewrite act_mul.
    by apply: pmT (pmA _ ea) _; left; exact: quart_axis.
  exact: pmT (pmA _ ec) abc.
have H A : orthogonal A -> pm (act A a) a -> (exists2 w, w \in [:: a; b; c] & pm (act A b) w) -> Pr A.
  move=> oA ea [w]; rewrite !inE => /or3P[]/eqP -> ew; last 2 first.
  - by apply: H1 => //; left.
  - by apply: H1 => //; right.
  by case/eqP: ab; exact: (line_inj oA an bn ea ew).
(* quart c and quart b permute the lines *)
have perm x : pm (act (quart x) x) x by left; exact: quart_axis.
have [w] := sym_class sR E aS; rewrite !inE => /or3P[]/eqP -> ew.
- exact: (H R sR.1 ew (sym_class sR E bS)).
- apply: (quart_back PrM c0 pc); apply: H; first by apply: orthogonal_mul; [exact: quart_orth | case: sR].
    by rewrite act_mul; apply: pmT (pmA _ ew) cab.
  have cba : pm (act (quart c) a) b by apply: quart_perp; rewrite // dotC.
  have [w'] := sym_class sR E bS; rewrite !inE => /or3P[]/eqP -> ew'.
  + by exists b; rewrite // act_mul; apply: pmT (pmA _ ew') cba.
  + by case/eqP: ab; exact: (line_inj sR.1 an bn ew ew').
  + by exists c; rewrite // act_mul; apply: pmT (pmA _ ew') (perm c).
- apply: (quart_back PrM b0 pb); apply: H; first by apply: orthogonal_mul; [exact: quart_orth | case: sR].
    by rewrite act_mul; apply: pmT (pmA _ ew) bca.
  have bac : pm (act (quart b) a) c by apply: quart_perp; rewrite // dotC.
  have [w'] := sym_class sR E bS; rewrite !inE => /or3P[]/eqP -> ew'.
  + by exists c; rewrite // act_mul; apply: pmT (pmA _ ew') bac.
  + by exists b; rewrite // act_mul; apply: pmT (pmA _ ew') (perm b).
  + by case/eqP: ab; exact: (line_inj sR.1 an bn ew ew').
Qed.

Section Hexagonal.
Variable s : F.
Hypothesis es : s ^+ 2 = 3%:R / 4%:R.
Lemma b_hex a S p R : [:: a] \in equals nb -> S \in equals nb -> size S = 3%N -> p \in S ->
  sym (sixth s a) -> sym (half p) -> Pr (sixth s a) -> Pr (half p) -> sym R -> Pr R.
Proof.
move=> aE SE sz pS s6 sp p6 pp sR.
have [an pn] := (single_nb aE, equals_sub SE pS); have [a0 p0] := (nz an, nz pn).
have ap : a != p.
  apply/eqP => e; have := equals_disjoint aE SE (v := p); rewrite e mem_head => /(_ isT pS) eS.
  by move: sz; rewrite -eS.
have d : dot p a = 0.
  have [//|d] := half_line p0 (sym_single sp aE).
  by have := npar an pn ap; rewrite cr_eq0C d eqxx.
have c0 := npar an pn ap; have oC := sixth_orth es a.
set C := sixth s a; set T := third s a.
have CC v : act C (act C v) = act T v by rewrite -act_mul sixth_sq.
have nT : ~ pm (act T p) p by move=> /(third_line es a0) e; rewrite e eqxx in c0.
have nC : ~ pm (act C p) p by move=> e; apply: nT; rewrite -CC; exact: pmT (pmA C e) e.
have nTC : ~ pm (act T p) (act C p).
  rewrite -CC => e; apply: nC; case: e => [/(act_inj oC) ->|]; first by left.
  by rewrite -actN => /(act_inj oC) ->; right.
have C3 : act T (act C p) = - p.
  by rewrite -CC -!act_mul -mulmxA sixth_cube // half_perp // dotC.
have pC A : orthogonal A -> p != 0 -> act A p != 0.
  by move=> oA h; rewrite -dot_eq0 dot_act // dot_eq0.
have uD : uniq (pms [:: p; act C p; act T p]).
  apply: uniq_pms_cons => //; last apply: uniq_pms_cons; last apply: uniq_pms_cons => //.
  - by apply/in_pm => -[w]; rewrite !inE => /orP[]/eqP -> /pmC.
  - exact: pC.
  - by apply/in_pm => -[w]; rewrite inE => /eqP -> /pmC.
  - by apply: pC => //; exact: third_orth.
have cov : {subset S <= pms [:: p; act C p; act T p]}.
  apply: lines_cover uD _ _; last by rewrite sz.
  have hT : sym T by rewrite /T -sixth_sq //; exact: sym_mul.
  move=> w; rewrite !inE => /or3P[]/eqP ->.
  - by rewrite mem_pms pS.
  - by apply/in_pm; exact: sym_class.
  - by apply/in_pm; exact: sym_class.
have pT : Pr T by rewrite /T -sixth_sq //; exact: PrM.
have ph : Pr (half a) by rewrite -(sixth_cube es a0); do 2![apply: PrM => //].
have d' : dot a p = 0 by rewrite dotC.
have fin A : orthogonal A -> pm (act A a) a -> pm (act A p) p -> Pr A.
  by move=> oA; exact: (in_diag3 PrM PrN a0 p0 d' oA ph pp).
have ea := sym_single sR aE; have oR := sR.1; have oT := third_orth es a.
have Ta A : pm (act A a) a -> pm (act (T *m A) a) a.
  by move=> e; rewrite act_mul; apply: pmT (pmA T e) _; left; exact: rot_axis.
have [w /cov/in_pm[t + et] ew] := sym_class sR SE pS; have {et ew}e := pmT ew et.
rewrite !inE => /or3P[]/eqP et; rewrite {}et in e.
- exact: fin.
- apply: (third_back PrM es a0 pT); apply: fin (Ta _ ea) _; first exact: orthogonal_mul.
  by rewrite act_mul; apply: pmT (pmA _ e) _; rewrite C3; right.
- apply: (third_back PrM es a0 pT); apply: (third_back PrM es a0 pT).
  apply: fin (Ta _ (Ta _ ea)) _; first by do 2![apply: orthogonal_mul => //].
  rewrite !act_mul; apply: pmT (pmA _ (pmA _ e)) _; left.
  by rewrite -!act_mul -mulmxA third_cube // act1.
Qed.
End Hexagonal.

(* two vectors along two of three orthogonal axes *)
Lemma on_axis x y z v : x != 0 -> y != 0 -> z != 0 -> dot x y = 0 -> dot x z = 0 -> dot y z = 0 -> v != 0 ->
  sym (half x) -> sym (half y) -> sym (half z) -> (forall A, sym A -> pm (act A v) v) ->
  exists2 a, a \in [:: x; y; z] & cr a v = 0.
Proof.
move=> x0 y0 z0 xy xz yz v0 sx sy sz h.
have [e|e] := half_line x0 (h _ sx); last by exists x; rewrite ?mem_head.
have [e'|e'] := half_line y0 (h _ sy); last by exists y; rewrite ?inE ?eqxx ?orbT.
have [e''|e''] := half_line z0 (h _ sz); last by exists z; rewrite ?inE ?eqxx ?orbT.
have c0 := perp_npar x0 y0 xy; case/eqP: v0; apply: (perp0 c0); rewrite 1?dotC //.
have par : cr z (cr x y) = 0 by apply: perp_par => //; rewrite dotC.
exact: (par_perp z0 par).
Qed.
Lemma b_base x y z a b R : x != 0 -> y != 0 -> z != 0 -> dot x y = 0 -> dot x z = 0 -> dot y z = 0 ->
  sym (half x) -> sym (half y) -> sym (half z) -> Pr (half x) -> Pr (half y) -> Pr (half z) ->
  [:: a] \in equals nb -> [:: b] \in equals nb -> a != b -> sym R -> Pr R.
Proof.
move=> x0 y0 z0 xy xz yz sx sy sz px py pz aE bE ab sR.
have [an bn] := (single_nb aE, single_nb bE); have [a0 b0] := (nz an, nz bn).
have H v : [:: v] \in equals nb -> sym (half v) /\ Pr (half v).
  move=> vE; have v0 := nz (single_nb vE).
  have [c + e] := on_axis x0 y0 z0 xy xz yz v0 sx sy sz (fun A sA => sym_single sA vE).
  by rewrite !inE => /or3P[]/eqP ec; rewrite ec in e; rewrite -(half_par _ v0 e).
have [sa pa] := H a aE; have [sb pb] := H b bE.
exact: (b_singles aE bE ab sa pa pb sR).
Qed.

(* a symmetry that preserves two lines with the same sign *)
Lemma sign_perp R u v : orthogonal R -> act R u = u -> act R v = - v -> dot u v = 0.
Proof.
move=> o eu ev; have := dot_act u v o; rewrite eu ev dotNr => /eqP; rewrite eq_sym -subr_eq0 opprK -mulr2n mulrn_eq0 /= => /eqP //.
Qed.
Lemma same_sign u v R : cr u v != 0 -> orthogonal R -> Pr (half (cr u v)) ->
  (act R u = u /\ act R v = v) \/ (act R u = - u /\ act R v = - v) -> Pr R.
Proof.
move=> c0 o pc h; have E A : act R u = act A u -> act R v = act A v -> act R (cr u v) = act A (cr u v) -> R = A by apply: ext3.
have [eu ev] : act (half (cr u v)) u = - u /\ act (half (cr u v)) v = - v by rewrite !half_perp // dotC ?dot_crl ?dot_crr.
have ec : pm (act R (cr u v)) (cr u v) by apply: cr_act => //; case: h => -[h1 h2]; by [left | right].
case: h ec => -[h1 h2] [] h3.
- by rewrite (E 1%:M) ?act1 //; exact: Pr_1.
- by rewrite (E (- half (cr u v))) ?actNM ?half_axis ?eu ?ev ?opprK //; exact: PrO.
- by rewrite (E (half (cr u v))) ?half_axis ?eu ?ev.
- by rewrite (E (- 1%:M)) ?actNM ?act1.
Qed.

(* three lines in a plane *)
Lemma b_mono a u v w R : a != 0 -> u \in nb -> v \in nb -> w \in nb -> u != v -> u != w -> v != w ->
  dot a u = 0 -> dot a v = 0 -> dot a w = 0 -> (forall A t, sym A -> t \in nb -> pm (act A t) t) ->
  Pr (half a) -> sym R -> Pr R.
Proof.
move=> a0 hu hv hw uv uw vw au av aw fix_ pa sR; have c0 := npar hu hv uv; have oR := sR.1.
have par : cr a (cr u v) = 0 by apply: perp_par.
have pc : Pr (half (cr u v)) by rewrite -(half_par a0 c0 par).
have np x y z : x \in nb -> y \in nb -> z \in nb -> x != y -> dot a x = 0 -> dot a y = 0 -> dot a z = 0 ->
    dot x z = 0 -> dot y z = 0 -> False.
  move=> xn yn zn xy ax ay az xz yz; have := npar xn yn xy.
  have n0 : cr a z != 0 by apply: perp_npar => //; exact: nz.
  by rewrite (par_trans n0) ?eqxx //; apply: perp_par => //; rewrite dotC.
apply: (same_sign c0 oR pc); have := fix_ R w sR hw.
have wu : w != u by rewrite eq_sym. have wv : w != v by rewrite eq_sym.
case: (fix_ R u sR hu) (fix_ R v sR hv) => eu [] ev; [by left | | | by right].
- have d := sign_perp oR eu ev; case=> ew.
    by have d' := sign_perp oR ew ev; case: (np u w v).
  by have d' := sign_perp oR eu ew; case: (np v w u); rewrite // dotC.
- have d := sign_perp oR ev eu; case=> ew.
    by have d' := sign_perp oR ew eu; case: (np v w u).
  by have d' := sign_perp oR ev ew; case: (np u w v); rewrite // dotC.
Qed.

(* no four are in a plane *)
Hypothesis ncop : forall (D : seq 'rV[F]_3) x, uniq D -> {subset D <= nb} -> (3 < size D)%N -> (forall v, v \in D -> dot x v = 0) -> x = 0.
Lemma all_fixed (D : seq 'rV[F]_3) R A : uniq D -> {subset D <= nb} -> (3 < size D)%N -> (forall v, v \in D -> act R v = act A v) -> R = A.
Proof.
move=> uD sD zD h; apply/row_matrixP => i; apply/eqP; rewrite -subr_eq0; apply/eqP; apply: (ncop uD sD zD) => t /h e.
have := congr1 (fun x : 'rV_3 => x 0 i) e; rewrite !mxE => /eqP; rewrite -subr_eq0 => /eqP <-.
by rewrite dotBl; congr (_ - _); apply: eq_bigr => j _; rewrite !mxE mulrC.
Qed.
Lemma b_tri R : (4 < size nb)%N -> (forall A t, sym A -> t \in nb -> pm (act A t) t) -> sym R -> Pr R.
Proof.
move=> sz fix_ sR; have oR := sR.1; have u := uniq_nb un.
pose P := [seq v <- nb | act R v == v]; pose M := [seq v <- nb | act R v == - v].
have uP : uniq P by rewrite filter_uniq. have uM : uniq M by rewrite filter_uniq.
have sP : {subset P <= nb} by move=> v; rewrite mem_filter => /andP[].
have sM : {subset M <= nb} by move=> v; rewrite mem_filter => /andP[].
have eP v : v \in P -> act R v = v by rewrite mem_filter => /andP[/eqP].
have eM v : v \in M -> act R v = - v by rewrite mem_filter => /andP[/eqP].
have perp p m : p \in P -> m \in M -> dot p m = 0 by move=> /eP ep /eM em; exact: sign_perp ep em.
have sum : (size nb <= size P + size M)%N.
  rewrite -size_cat; apply: uniq_leq_size u _ => v vn; rewrite mem_cat !mem_filter vn !andbT.
  by case: (fix_ R v sR vn) => ->; rewrite eqxx ?orbT.
have [zP|zP] := ltnP 3 (size P).
  case EM : M => [|m M']; last first.
    have mM : m \in M by rewrite EM mem_head.
    have := nz (sM _ mM); rewrite (ncop uP sP zP (x := m)) ?eqxx // => p pP; by rewrite dotC perp.
  have -> : R = 1%:M by apply: (all_fixed uP sP zP) => v vP; rewrite (eP v vP) act1.
  exact: Pr_1.
have [zM|zM] := ltnP 3 (size M).
  case EP : P => [|p P']; last first.
    have pP : p \in P by rewrite EP mem_head.
    have := nz (sP _ pP); rewrite (ncop uM sM zM (x := p)) ?eqxx // => m mM; by rewrite perp.
  have -> : R = - 1%:M by apply: (all_fixed uM sM zM) => v vM; rewrite (eM v vM) actNM act1.
  exact: PrN.
have [] : (1 < size P)%N /\ (1 < size M)%N by clear -sum sz zP zM; lia.
case EP: P uP perp => [|p1 [|p2 P']] // uP perp _; case EM: M uM perp => [|m1 [|m2 M']] // uM perp _.
have [i1 i2] : p1 \in P /\ p2 \in P by rewrite EP !inE !eqxx orbT.
have [j1 j2] : m1 \in M /\ m2 \in M by rewrite EM !inE !eqxx orbT.
have n1 : p1 != p2 by move: uP; rewrite /= inE negb_or => /andP[/andP[]].
have n2 : m1 != m2 by move: uM; rewrite /= inE negb_or => /andP[/andP[]].
have c0 := npar (sM _ j1) (sM _ j2) n2.
have := npar (sP _ i1) (sP _ i2) n1; rewrite (par_trans c0) ?eqxx //; apply: perp_par => //; apply: perp; by rewrite ?inE ?eqxx ?orbT.
Qed.

(* two pairs and a lone vector *)
Lemma b_fco a p r t R : [:: a] \in equals nb -> (forall S, S \in equals nb -> (size S <= 2)%N) ->
  p \in nb -> r \in nb -> p != r -> (forall v, v \in nb -> dot v a = 0 -> v = p \/ v = r) -> dot p a = 0 -> dot r a = 0 ->
  t \in nb -> t != a -> t != p -> t != r -> sym (half a) -> sym (half (p + r)) -> Pr (half a) -> Pr (half (p + r)) -> sym R -> Pr R.
Proof.
move=> aE sz pn rn pr only pa ra tn ta tp tr sa sx pra prx sR.
have an := single_nb aE; have a0 := nz an; have p0 := nz pn; have r0 := nz rn; have t0 := nz tn.
have c0 := npar pn rn pr; set x := p + r in sx prx *; set y := p - r.
have x0 : x != 0 by apply: contraNneq c0 => /eqP; rewrite addr_eq0 => /eqP ->; rewrite crNl crxx oppr0.
have xa : dot a x = 0 by rewrite dotC dotDl pa ra addr0.
have ya : dot a y = 0 by rewrite dotC dotBl pa ra subr0.
have nta : cr t a != 0 by exact: npar.
have nda : dot a t != 0.
  by apply/eqP; rewrite dotC => /(only t tn) [e|e]; [rewrite e eqxx in tp | rewrite e eqxx in tr].
have perpA A v : sym A -> v \in nb -> dot v a = 0 -> exists2 w, w \in [:: p; r] & pm (act A v) w.
  move=> sA vn va; have [w wn ew] := sym_nb sA vn; exists w => //.
  have : dot w a = 0.
    apply: pmdot (pmC ew) _; rewrite dotC; apply: pmdot (pmC (sym_single sA aE)) _.
    by rewrite dot_act ?(dotC a) //; case: sA.
  by move/(only w wn) => [->|->]; rewrite !inE eqxx ?orbT.
have two A : sym A -> (pm (act A p) p /\ pm (act A r) r) \/ (pm (act A p) r /\ pm (act A r) p).
  move=> sA; have [w + ew] := perpA A p sA pn pa; have [w' + ew'] := perpA A r sA rn ra.
  rewrite !inE => /orP[]/eqP e' /orP[]/eqP e; rewrite {}e {}e' in ew ew' *; [ | by right | by left | ].
    by case/eqP: pr; exact: (line_inj sA.1 pn rn ew ew').
  by case/eqP: pr; exact: (line_inj sA.1 pn rn ew ew').
have e : q p = q r.
  have [[h1 h2]|[h _]] := two _ sx; last by rewrite -(pmq h) dot_act //; exact: half_orth.
  have d1 : dot x p = 0.
    have [//|] := half_line x0 h1; rewrite /x crDl crxx add0r => /eqP; by rewrite cr_eq0C (negPf c0).
  have d2 : dot x r = 0.
    have [//|] := half_line x0 h2; rewrite /x crDl crxx addr0 => /eqP; by rewrite (negPf c0).
  by case/eqP: x0; apply/eqP; rewrite -dot_eq0 {2}/x dotDr d1 d2 addr0.
have xy : dot x y = 0 by rewrite /x /y dotDl !(dotDr, dotNr) (dotC r p) e; move: (q r) (dot p r) => ? ?; ringm Rg.
have y0 : y != 0 by rewrite subr_eq0.
have rc : pm (act R x) x \/ (pm (act R x) y /\ pm (act R y) x).
  rewrite /x /y !actD actN; case: (two R sR) => -[[->|->] [->|->]];
  by [left; left | left; right; rewrite opprD | left; left; rewrite addrC | left; right; rewrite opprD addrC |
      right; split; [left | left]; rewrite ?opprK | right; split; [right | right]; rewrite ?opprD ?opprK ?opprB // addrC |
      right; split; [right | left]; rewrite ?opprB ?opprK // addrC | right; split; [left | right]; rewrite ?opprD // addrC].
case: rc => [rx|[rx ry]].
  exact: (in_diag3 PrM PrN a0 x0 xa sR.1 pra prx (sym_single sR aE) rx).
(* a fourfold element: the other vectors would be in sets of four *)
exfalso; have oR := sR.1; have SE := equals_in tn; set S := class_of nb t in SE.
have tS : t \in S by rewrite mem_filter eqxx.
have nta' : ~ pm (act (half a) t) t.
  move/(half_line a0) => [d|d]; first by rewrite d eqxx in nda.
  by rewrite cr_eq0C d eqxx in nta.
have oa := half_orth a; have ox := half_orth x.
have uD : uniq (pms [:: t; act (half a) t]).
  apply: uniq_pms_cons => //; last apply: uniq_pms_cons => //.
    by apply/in_pm => -[w]; rewrite inE => /eqP -> /pmC.
  by rewrite -dot_eq0 dot_act // dot_eq0.
have cov : {subset S <= pms [:: t; act (half a) t]}.
  apply: lines_cover uD _ (sz S SE) => w; rewrite !inE => /orP[]/eqP ->; first by rewrite mem_pms tS.
  by apply/in_pm; exact: sym_class.
have lineS A : sym A -> pm (act A t) t \/ pm (act A t) (act (half a) t).
  move=> sA; have [w /cov/in_pm[v + ev] ew] := sym_class sA SE tS; have {ev ew}h := pmT ew ev.
  by rewrite !inE => /orP[]/eqP ev; rewrite {}ev in h; [left | right].
have ax : act (half a) x = - x by exact: half_perp.
have ay : act (half a) y = - y by exact: half_perp.
have xx : act (half x) x = x by exact: half_axis.
have xya : act (half x) y = - y by exact: half_perp.
have both (v : 'rV[F]_3) : act (half a) v = - v -> dot t v = 0 -> dot (act R t) v = 0.
  move=> hv tv; have tv' : dot (act (half a) t) v = 0.
    by rewrite -[v]opprK -hv dotNr dot_act // tv oppr0.
  by have [h|h] := lineS R sR; apply: pmdot h _.
have fin : dot (act R t) x = 0 -> dot (act R t) y = 0 -> False.
  move=> d1 d2; have n0 := perp_npar x0 y0 xy.
  have par : cr (act R t) a = 0 by apply: (par_trans n0); apply: perp_par.
  have := cr_act oR (pm_refl (act R t)) (sym_single sR aE); rewrite par => h.
  have h' : act R (cr t a) = 0 by case: h => ->; rewrite ?oppr0.
  by case/eqP: nta; apply: (act_inj oR); rewrite h' /act mul0mx.
have [tx|ty] : dot t x = 0 \/ dot t y = 0.
  have [/(half_line x0) [d|d]|[h|h]] := lineS _ sx.
  - by left; rewrite dotC.
  - by case/eqP: nda; rewrite dotC; apply: (par_perp x0 d); rewrite dotC.
  - left; have h1 : dot (act (half x) t) x = dot t x by rewrite -{2}xx dot_act.
    have h2 : dot (act (half a) t) x = - dot t x by rewrite -{1}[x]opprK -ax dotNr dot_act.
    by move/eqP: h1; rewrite h h2 eq_sym -subr_eq0 opprK -mulr2n mulrn_eq0 => /eqP.
  - right; have h1 : dot (act (half x) t) y = - dot t y by rewrite -{1}[y]opprK -xya dotNr dot_act.
    have h2 : dot (act (half a) t) y = - dot t y by rewrite -{1}[y]opprK -ay dotNr dot_act.
    by move/eqP: h1; rewrite h dotNl h2 opprK -subr_eq0 opprK -mulr2n mulrn_eq0 => /eqP.
- by apply: fin (both x ax tx) _; rewrite dotC; apply: pmdot (pmC rx) _; rewrite dot_act // dotC.
- by apply: fin (both y ay ty); rewrite dotC; apply: pmdot (pmC ry) _; rewrite dot_act // dotC.
Qed.

(* six vectors: the edges of a tetrahedron *)
Section Frame.
Variables x y z : 'rV[F]_3.
Hypotheses (x0 : x != 0) (y0 : y != 0) (z0 : z != 0) (xy : dot x y = 0) (xz : dot x z = 0) (yz : dot y z = 0).
Definition code (t : int * int * int) : 'rV[F]_3 := 2^-1 *: (t.1.1%:~R *: x + t.1.2%:~R *: y + t.2%:~R *: z).
Lemma code_inj : injective code.
Proof.
move=> [[i j] k] [[i' j'] k'] e; have {}e := congr1 (fun v : 'rV[F]_3 => 2%:R *: v) e.
rewrite /code !scalerA mulfV ?pnatr_eq0 // !scale1r /= in e.
have E (v : 'rV[F]_3) : dot (i%:~R *: x + j%:~R *: y + k%:~R *: z) v = dot (i'%:~R *: x + j'%:~R *: y + k'%:~R *: z) v by rewrite e.
have yx : dot y x = 0 by rewrite dotC. have zx : dot z x = 0 by rewrite dotC. have zy : dot z y = 0 by rewrite dotC.
have Q (v : 'rV[F]_3) (m m' : int) : v != 0 -> m%:~R * q v = m'%:~R * q v -> m = m'.
  by move=> v0 h; apply: (intr_inj (R := [numDomainType of F])); apply: (mulIf _ h); rewrite dot_eq0.
have e1 := E x; have e2 := E y; have e3 := E z.
rewrite !dotDl !dotZl yx zx !mulr0 !addr0 in e1.
rewrite !dotDl !dotZl xy zy !mulr0 !addr0 !add0r in e2.
rewrite !dotDl !dotZl xz yz !mulr0 !add0r in e3.
by rewrite (Q _ _ _ x0 e1) (Q _ _ _ y0 e2) (Q _ _ _ z0 e3).
Qed.
Definition copp (t : int * int * int) := (- t.1.1, - t.1.2, - t.2).
Lemma codeN t : code (copp t) = - code t.
Proof. by rewrite /code /copp /= !mulrNz !scaleNr -!opprD scalerN. Qed.
Lemma uniq_codes (s : seq (int * int * int)) : uniq (s ++ map copp s) -> uniq (pms (map code s)).
Proof.
move=> u; have -> : pms (map code s) = map code (s ++ map copp s); last by rewrite (map_inj_uniq code_inj).
by rewrite map_cat /pms -!map_comp; congr (_ ++ _); apply: eq_map => t /=; rewrite codeN.
Qed.
End Frame.

Lemma b_fcc v w R : size nb = 6%N -> v \in nb -> w \in nb -> q v = q w -> dot v w = 0 ->
  (forall t, t \in nb -> dot t v = 0 -> t = w) -> let x := v + w in let y := v - w in let z := cr v w in
  sym (quart x) -> sym (quart y) -> sym (quart z) -> Pr (quart x) -> Pr (quart y) -> Pr (quart z) -> sym R -> Pr R.
Proof.
move=> sz vn wn e vw only x y z sx sy sZ px py pz sR; have v0 := nz vn; have w0 := nz wn.
have wv : dot w v = 0 by rewrite dotC.
have xy : dot x y = 0 by rewrite /x /y dotDl !(dotDr, dotNr) vw wv e; move: (q w) => ?; ringm Rg.
have exy : q x = q y by rewrite /x /y !dotDl !(dotDr, dotNr) !dotNl vw wv; move: (q w) (q v) => ? ?; ringm Rg.
have x0 : x != 0.
  by rewrite -dot_eq0 /x !dotDl !dotDr vw wv addr0 add0r gt_eqF // addr_gt0 //; exact: q_gt0.
have y0 : y != 0 by rewrite -dot_eq0 -exy dot_eq0.
have z0 : z != 0 := perp_npar v0 w0 vw.
have [zv zw] : dot z v = 0 /\ dot z w = 0 by rewrite /z dotC dot_crl dotC dot_crr.
have xz : dot x z = 0 by rewrite dotC dotDr zv zw addr0.
have yz : dot y z = 0 by rewrite dotC dotDr dotNr zv zw subr0.
have yx : dot y x = 0 by rewrite dotC.
have vE : v = 2^-1 *: (x + y) by rewrite /x /y addrACA subrr addr0 -mulr2n -scaler_nat scalerA mulVf ?pnatr_eq0 // scale1r.
have wE : w = 2^-1 *: (x - y) by rewrite /x /y opprD opprK addrACA subrr add0r -mulr2n -scaler_nat scalerA mulVf ?pnatr_eq0 // scale1r.
have [ox oy oz] := And3 (quart_orth x) (quart_orth y) (quart_orth z).
set Z := act (quart x) y.
have xZ : dot x Z = 0 by rewrite -[x](quart_axis x) dot_act.
have yZ : dot y Z = 0.
  rewrite /Z act_rot // scale0r add0r yx mulr0 mul0r scale0r add0r scale1r.
  exact: dot_crr.
have eZ : q Z = q y by rewrite dot_act.
have Z0 : Z != 0 by rewrite -dot_eq0 eZ dot_eq0.
have xZy : act (quart x) Z = - y.
  by rewrite -act_mul quart_sq // half_perp.
have yxZ : pm (act (quart y) x) Z by apply: quart_perp; rewrite // exy -eZ.
pose c := code x y Z.
have E1 : v = c (1, 1, 0) by rewrite /c /code /= !scale1r scale0r addr0.
have E2 : w = c (1, -1, 0) by rewrite /c /code /= scale1r scaleN1r scale0r addr0.
have E3 : act (quart x) v = c (1, 0, 1).
  by rewrite vE actZ actD quart_axis /c /code /= !scale1r scale0r addr0.
have E4 : act (quart x) w = c (1, 0, -1).
  by rewrite wE actZ actD actN quart_axis /c /code /= scale1r scaleN1r scale0r addr0.
have [d [dd E5 E6]] : exists d : int, [/\ d = 1 \/ d = -1, act (quart y) v = c (0, 1, d) & act (quart y) w = c (0, -1, d)].
  case: yxZ => h; [exists 1 | exists (-1)]; (split; first by [left | right]);
    by rewrite ?vE ?wE actZ actD ?actN quart_axis h /c /code /= scale0r add0r ?scale1r ?scaleN1r addrC.
have uD : uniq (pms (map c [:: (1, 1, 0); (1, -1, 0); (1, 0, 1); (1, 0, -1); (0, 1, d); (0, -1, d)])).
  by apply: uniq_codes => //; case: dd => ->.
have cov : {subset nb <= pms (map c [:: (1, 1, 0); (1, -1, 0); (1, 0, 1); (1, 0, -1); (0, 1, d); (0, -1, d)])}.
  apply: lines_cover uD _ _; last by rewrite sz.
  rewrite /= -E1 -E2 -E3 -E4 -E5 -E6 => t; rewrite 6!inE => ht.
  have vw' : v \in pms nb /\ w \in pms nb by rewrite !mem_pms vn wn.
  by case/or4P: ht => [/eqP ->|/eqP ->|/eqP ->|/or3P[]/eqP ->]; try (by case: vw'); [exact: sx.2|exact: sx.2|exact: sy.2|exact: sy.2].
have lineV A : sym A -> exists2 t, t \in [:: v; w; act (quart x) v; act (quart x) w; act (quart y) v; act (quart y) w] & pm (act A v) t.
  move=> sA; have [t tn et] := sym_nb sA vn; have /in_pm[u hu eu] := cov t tn; exists u; last exact: pmT et eu.
  by move: hu; rewrite /= -E1 -E2 -E3 -E4 -E5 -E6.
have hx := quart_half PrM x0 px; have hz := quart_half PrM z0 pz.
have zx : dot z x = 0 by rewrite dotC. have zy : dot z y = 0 by rewrite dotC.
have H0 A : sym A -> pm (act A v) v -> Pr A.
  move=> sA ev; have oA := sA.1.
  have ew : pm (act A w) w.
    have [t tn et] := sym_nb sA wn; have tw : t = w; last by rewrite tw in et.
    by apply: (only t tn); apply: pmdot (pmC et) _; rewrite dotC; apply: pmdot (pmC ev) _; rewrite dot_act.
  have ez : pm (act A z) z by exact: cr_act.
  have [ex|ex] : pm (act A x) x \/ pm (act A x) y.
    rewrite /x /y actD; case: ev ew => -> [] ->; by [left; left | right; left | right; right; rewrite opprB addrC | left; right; rewrite opprD].
  - exact: (in_diag3 PrM PrN x0 z0 xz oA hx hz ex ez).
  apply: (quart_back PrM z0 pz); have oB : orthogonal (quart z *m A) by exact: orthogonal_mul.
  apply: (in_diag3 PrM PrN x0 z0 xz oB hx hz); rewrite act_mul.
    by apply: pmT (pmA _ ex) _; apply: quart_perp.
  by apply: pmT (pmA _ ez) _; left; exact: quart_axis.
have H1 A : sym A -> pm (act A v) v \/ pm (act A v) w -> Pr A.
  move=> sA [ev|ev]; first exact: H0.
  apply: (quart_back PrM z0 pz); apply: H0; first exact: sym_mul.
  by rewrite act_mul; apply: pmT (pmA _ ev) _; apply: quart_perp.
have H2 A a u : a != 0 -> sym (quart a) -> Pr (quart a) -> sym A -> u = v \/ u = w -> pm (act A v) (act (quart a) u) -> Pr A.
  move=> a0 sa pa sA hu ev; do 3![apply: (quart_back PrM a0 pa)].
  apply: H1; first by do 3![apply: sym_mul => //].
  have E : pm (act (quart a *m (quart a *m (quart a *m A))) v) u.
    rewrite !act_mul; apply: pmT (pmA _ (pmA _ (pmA _ ev))) _.
    by rewrite -act_mul quart_sq // -(act_mul (quart a)) quart_sq // -act_mul half_sq // act1; left.
  by case: hu E => ->; [left | right].
have [t + et] := lineV R sR; rewrite 6!inE => ht.
case/or4P: ht => [|||/or3P[]] /eqP ht; rewrite {}ht in et.
- by apply: H1 => //; left.
- by apply: H1 => //; right.
- by apply: (H2 R x v) => //; left.
- by apply: (H2 R x w) => //; right.
- by apply: (H2 R y v) => //; left.
- by apply: (H2 R y w) => //; right.
Qed.
End Branches.
