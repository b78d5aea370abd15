(* C37: symmetrize_monomial. *)
From mathcomp Require Import all_ssreflect all_algebra.
From mathcomp Require Import complex realalg.
From Verif Require Import Prelude ModelCore ModelProofs PropModel PGE PGEProofs PGEGroup Keys KeysProofs PropApply.
From Verif Require Import LinSpan NullSpec Family FamilyProofs PropFamily FamilyOps PropConstrain Average Symmetrize.

Set Implicit Arguments.
Unset Strict Implicit.
Unset Printing Implicit Defensive.
Import GRing.Theory Num.Theory.
Local Open Scope ring_scope.
Local Open Scope complex_scope.

Section Eval.
Variables (F : rcfType) (n1 n2 : nat) (K : eqType) (kone : K) (Mom : eqType) (mom : Mom).
Local Notation C := F[i].
Local Notation V := [lmodType C of 'M[C]_(n1, n2)].
Local Notation model := (model K Mom V).
Local Notation good := (good kone mom).
Local Notation meval := (meval kone).

Lemma psum_eval (l : seq model) m (ev : K -> C) : (forall x, List.In x l -> good x) -> psum kone l = Ok m ->
  meval ev m = \sum_(x <- l) meval ev x.
Proof.
case: l => // x l H; rewrite /psum; have -> : mcopy x = x by case: (x).
have gx := H x (or_introl erefl).
have Hl y : List.In y l -> good y by move=> h; apply: H; right.
elim: l x gx Hl {H} => [|y l IH] x [wx sx mx] Hl /=; first by case=> <-; rewrite big_seq1.
have [wy sy my] := Hl y (or_introl erefl).
have E : mmom x = mmom y by rewrite mx my.
have A := madd'P kone E; rewrite A => Em.
have gxy : good (madd' kone x y).
  by split; [exact: madd_wf A|exact: all_sym_madd'|rewrite (madd_mom E A)].
rewrite (IH _ gxy _ Em) => [|z zl]; last by apply: Hl; right.
by rewrite !big_cons (madd_eval _ wx wy A) addrA.
Qed.

Lemma comb_eval (fam : seq model) c m (ev : K -> C) : good m -> (forall x, List.In x fam -> good x) ->
  is_comb kone fam c m ->
  meval ev m = \sum_(j < size fam) (c j)%:C *: nth 0 [seq meval ev x : 'M[C]_(n1, n2) | x <- fam] j.
Proof.
move=> [wm _ _] gf H.
pose ks := undup (dkeys kone (mdata m) ++ flatten [seq dkeys kone (mdata x) | x <- fam]).
have u : uniq ks by apply: undup_uniq.
have s1 : {subset dkeys kone (mdata m) <= ks} by move=> k; rewrite mem_undup !mem_cat => ->.
rewrite mevalE (deval_keys _ wm u s1).
under eq_bigr => k _ do rewrite H /fcoef scaler_sumr.
rewrite exchange_big /=; apply: eq_bigr => j _.
have lj : (j < size fam)%N by [].
have xf := nth_In m lj; have [wx _ _] := gf _ xf.
rewrite !(nth_map m) // mevalE (deval_keys _ wx u) => [|k kx]; last first.
  rewrite mem_undup mem_cat; apply/orP; right; apply/flattenP.
  by exists (dkeys kone (mdata (nth m fam j))) => //; rewrite -(nth_map m [::] (fun x => dkeys kone (mdata x))) // mem_nth // size_map.
by rewrite scaler_sumr; apply: eq_bigr => k _; rewrite (nth_map m) // !scalerA mulrC.
Qed.
End Eval.

Section Sym.
Variables (F : rcfType) (d n : nat) (P : eqType) (pone : P) (pmul : P -> P -> P) (pc : P -> P).
Variables (K : eqType) (kone : K) (Mom : eqType) (mom : Mom).
Local Notation C := F[i].
Local Notation pge := (pge F d n).
Local Notation mat := [lmodType C of 'M[C]_n.+1].
Local Notation model := (model K Mom mat).
Local Notation ass := (assignment F d pone pmul pc).
Local Notation good := (good kone mom).
Variables (ev : ass -> K -> C) (papply : pge -> model -> res model).
Definition value (m : model) (a : ass) : 'M[C]_n.+1 := meval kone (ev a) m.
(* apply is the documented action; instances below *)
Definition acts : Prop := forall g m, pge_wf g -> good m ->
  exists m', [/\ papply g m = Ok m', good m' & value m' =1 moved g (value m)].
Hypothesis AP : acts.
Implicit Types (g h : pge) (G : seq pge) (m : model).

Definition invariant g m : Prop := exists2 m', papply g m = Ok m' & value m' =1 value m.
Lemma invariantP g m : pge_wf g -> good m -> invariant g m <-> moved g (value m) =1 value m.
Proof.
move=> wg gm; have [m' [E _ V]] := AP wg gm; split.
  by case=> m2; rewrite E => -[<-] e a; rewrite -V e.
by move=> e; exists m' => // a; rewrite V e.
Qed.

Lemma symmetrize_value G m : symmetry_group G -> good m ->
  exists s, [/\ symmetrize_monomial kone papply m G = Ok s, good s & value s =1 average G (value m)].
Proof.
move=> sG gm; have [wG _ _ _ n0] := sG.
have [images E] : exists images, mapM (fun s => papply s m) G = Ok images.
  by apply: mapM_total => g /wG wg; have [m' [-> _ _]] := AP wg gm; exists m'.
have [sz iE] := mapM_ok E.
have gi x : List.In x images -> good x.
  by move=> xi; have [g /wG wg e] := mapM_In E xi; have [m' [e' gm' _]] := AP wg gm; move: e; rewrite e' => -[<-].
have [|t [Et gt _]] := @psum_props _ _ _ _ kone _ mom images _ gi; first by rewrite sz.
exists (mscale (size G)%:R^-1 t); rewrite /symmetrize_monomial E /= Et.
have -> : nilp G = false by apply/negbTE; rewrite /nilp -lt0n.
split=> //; first exact: good_scale.
move=> a; rewrite /value mscale_eval => [|k]; last by rewrite mulrC.
rewrite /average; congr (_ *: _); rewrite (psum_eval _ gi Et).
have {gi Et iE gt t n0 sG sz} H g : List.In g G -> forall m', papply g m = Ok m' -> meval kone (ev a) m' = moved g (value m) a.
  by move=> /wG wg m' e; have [m2 [e2 _ V]] := AP wg gm; move: e; rewrite e2 => -[<-]; apply: V.
elim: G images E H {wG} => [|g G IH] images /=; first by case=> <- _; rewrite !big_nil.
case e: (papply g m) => [m'|] //=; case E: (mapM _ G) => [l|] //= [<-] H.
rewrite !big_cons (H g) //; last by left.
by rewrite (IH l) // => h hG; apply: H; right.
Qed.

(* the average is invariant, and symmetrizing an invariant monomial changes nothing *)
Theorem C37_projects G m : symmetry_group G -> good m ->
  exists s, [/\ symmetrize_monomial kone papply m G = Ok s, good s,
    forall g, List.In g G -> invariant g s &
    (forall g, List.In g G -> invariant g m) -> value s =1 value m].
Proof.
move=> sG gm; have [s [E gs V]] := symmetrize_value sG gm; have [wG _ _ _ n0] := sG.
exists s; split=> // [g gG|H].
  apply/(invariantP (wG _ gG) gs) => a; rewrite V -(average_invariant (value m) sG gG a).
  exact: eq_moved.
move=> a; rewrite V average_fixed // => g gG; apply/(invariantP (wG _ gG) gm); exact: H.
Qed.

Theorem C37_idempotent G m : symmetry_group G -> good m ->
  exists s s', [/\ symmetrize_monomial kone papply m G = Ok s,
    symmetrize_monomial kone papply s G = Ok s' & value s' =1 value s].
Proof.
move=> sG gm; have [s [E gs I _]] := C37_projects sG gm.
have [s' [E' _ _ H]] := C37_projects sG gs.
by exists s, s'; split=> //; apply: H.
Qed.

Theorem C37_linear G (r : F) x y m : symmetry_group G -> good x -> good y -> good m ->
  (forall a, value m a = r%:C *: value x a + value y a) ->
  exists sx sy sm, [/\ symmetrize_monomial kone papply x G = Ok sx,
    symmetrize_monomial kone papply y G = Ok sy, symmetrize_monomial kone papply m G = Ok sm &
    forall a, value sm a = r%:C *: value sx a + value sy a].
Proof.
move=> sG gx gy gm H.
have [sx [Ex _ Vx]] := symmetrize_value sG gx; have [sy [Ey _ Vy]] := symmetrize_value sG gy.
have [sm [Em _ Vm]] := symmetrize_value sG gm.
by exists sx, sy, sm; split=> // a; rewrite Vx Vy Vm; apply: average_linear.
Qed.

(* an empty collection, although closed under multiplication, raises *)
Theorem C37_empty_refuted m : symmetrize_monomial kone papply m [::] = Err ZeroDivisionError.
Proof. by []. Qed.
End Sym.

(* ---- the two kinds of Models ---- *)
Section Instances.
Variables (F : rcfType) (d n : nat) (P : eqType) (pone : P) (pmul : P -> P -> P) (pc : P -> P).
Hypothesis pcK : involutive pc.
Variables (Mom : eqType) (mom : Mom).
Local Notation C := F[i].
Local Notation pge := (pge F d n).
Local Notation key := (key F d P).
Local Notation bkey := (bkey F d P).
Local Notation mat := [lmodType C of 'M[C]_n.+1].
Local Notation kmodel := (model [eqType of key] Mom mat).
Local Notation bmodel := (model [eqType of bkey] Mom mat).
Local Notation ass := (assignment F d pone pmul pc).
Let ko : [eqType of key] := kone F d pone.
Let bo : [eqType of bkey] := bone F d pone.

Lemma acts_model : acts ko mom (fun (a : ass) (k : key) => kev a k) (fun (g : pge) (m : kmodel) => pge_apply pone pc g m).
Proof.
move=> g m _ [w s mo]; have [m' [E w' s' mo' H]] := C02_apply_value pone pmul pcK g s.
by exists m'; split=> //; split=> //; rewrite mo'.
Qed.
Lemma acts_bloch : acts bo mom (fun (a : ass) (k : bkey) => bev a k) (fun (g : pge) (m : bmodel) => pge_apply_bloch pone pc g m).
Proof.
move=> g m [u _] gm; have [w s mo] := gm; have [m' [E H]] := C22_bloch_apply_value pmul pcK s w u.
have [tot _] := pge_apply_bloch_lop pone pmul pcK mom u.
have [m2 [E2 g2]] := tot m gm; exists m'; split=> //.
by move: E2; rewrite E => -[->].
Qed.

Theorem C37_models G (m : kmodel) : symmetry_group G -> good ko mom m ->
  exists s, [/\ symmetrize_monomial ko (fun (g : pge) (m : kmodel) => pge_apply pone pc g m) m G = Ok s,
    forall g, List.In g G -> exists2 s', pge_apply pone pc g s = Ok s' & forall a : ass, ker a s' = ker a s &
    (forall g, List.In g G -> exists2 m', pge_apply pone pc g m = Ok m' & forall a : ass, ker a m' = ker a m) ->
    forall a : ass, ker a s = ker a m].
Proof. by move=> sG gm; have [s [E _ I H]] := C37_projects acts_model sG gm; exists s. Qed.

Theorem C37_bloch_models G (m : bmodel) : symmetry_group G -> good bo mom m ->
  exists s, [/\ symmetrize_monomial bo (fun (g : pge) (m : bmodel) => pge_apply_bloch pone pc g m) m G = Ok s,
    forall g, List.In g G -> exists2 s', pge_apply_bloch pone pc g s = Ok s' & forall a : ass, ber a s' = ber a s &
    (forall g, List.In g G -> exists2 m', pge_apply_bloch pone pc g m = Ok m' & forall a : ass, ber a m' = ber a m) ->
    forall a : ass, ber a s = ber a m].
Proof. by move=> sG gm; have [s [E _ I H]] := C37_projects acts_bloch sG gm; exists s. Qed.
End Instances.

(* ---- closure in the sense of the default comparison, which ignores U, is not enough ---- *)
Lemma mapM1 A B (f : A -> res B) x : mapM f [:: x] = do y <- f x; Ok [:: y].
Proof. by rewrite /=; case: (f x). Qed.

Section Default.
Local Notation F := realalg_rcfType.
Local Notation C := F[i].
Local Notation P := [eqType of unit].
Local Notation key := (key F 1 P).
Local Notation mat := [lmodType C of 'M[C]_2].
Local Notation ass := (assignment F 1 (tt : P) (fun _ _ => tt) (fun _ => tt)).
Local Notation Mom := [eqType of unit].
Local Notation kmodel := (model [eqType of key] Mom mat).

Theorem C37_default_comparison_refuted :
  exists (G : seq (pge F 1 1)) (m s : kmodel),
    [/\ forall g, List.In g G -> pge_wf g,
        forall g h, List.In g G -> List.In h G -> exists2 k, List.In k G & pge_eq (pge_mul g h) k,
        symmetrize_monomial (kone F 1 (tt : P) : [eqType of key]) (fun g m => pge_apply (tt : P) (fun _ => tt) g m) m G = Ok s &
        exists g s' (a : ass), [/\ List.In g G, pge_apply (tt : P) (fun _ => tt) g s = Ok s' & ker a s' <> ker a s]].
Proof.
pose g : pge F 1 1 := Pge 1%:M false false (Some swap2) false.
pose m : kmodel := Mk [:: (Sym (kone F 1 (tt : P) : [eqType of key]), proj2)] [::] tt.
have s0 : all_sym m by [].
have pK : involutive (fun _ : P => tt : P) by case.
have [m1 [E1 _ s1 _ e1]] := @C02_apply_value F 1 1 P tt (fun _ _ => tt) (fun _ => tt) pK Mom g m s0.
have sE : symmetrize_monomial (kone F 1 (tt : P) : [eqType of key]) (fun g m => pge_apply (tt : P) (fun _ => tt) g m) m [:: g] = Ok (mscale 1%:R^-1 (mcopy m1)).
  by rewrite /symmetrize_monomial mapM1 E1.
exists [:: g], m, (mscale 1%:R^-1 (mcopy m1)); split=> //.
- by move=> h [<-|//]; split; rewrite /= ?unitmx1 //; apply: swap2_unitary.
- move=> h k [<-|//] [<-|//]; exists g; first by left.
  by rewrite /pge_eq /= mul1mx !eqxx.
have ss : all_sym (mscale 1%:R^-1 (mcopy m1)) by rewrite mscale_sym; case: (m1) s1.
have [m2 [E2 _ s2 _ e2]] := @C02_apply_value F 1 1 P tt (fun _ _ => tt) (fun _ => tt) pK Mom g _ ss.
exists g, m2, (triv 0); split=> //; first by left.
have kv (b : ass) : ker b m = proj2.
  rewrite /ker /meval big_seq1 /= (_ : kev b _ = 1) ?scale1r //; exact: kev_one.
have ks (b : ass) : ker b (mscale 1%:R^-1 (mcopy m1)) = act g proj2.
  rewrite /ker mscale_eval => [|k]; last by rewrite mulrC.
  have -> : mcopy m1 = m1 by case: (m1).
  by rewrite invr1 scale1r -/(ker b m1) e1 kv.
rewrite e2 !ks -act_mul //.
have ds : dagger swap2 = swap2.
  by apply/matrixP => i j; rewrite !mxE eq_sym; case: eqP => _; rewrite ?rmorph0 ?rmorph1.
have E : swap2 *m swap2 = 1%:M by have [] := swap2_unitary; rewrite ds.
have -> : act (pge_mul g g) proj2 = proj2.
  by rewrite /act /= E scale1r mul1mx dagger1 mulmx1.
rewrite /act /= scale1r ds => /matrixP /(_ 0 0).
rewrite [LHS]mxE /= mxE big_ord_recl big_ord1 [X in _ = X * _ + _]mxE [X in _ = _ + X * _]mxE.
rewrite !big_ord_recl !big_ord0 /= !mxE /= !(mul0r, mulr0, mulr1, addr0, add0r) => /eqP.
by rewrite oner_eq0.
Qed.
End Default.

(* symmetrizing exp(ik) with respect to inversion gives cos(k) *)
Section Example.
Variable F : rcfType.
Local Notation mat1 := [lmodType F[i] of 'M[F[i]]_1].
Local Notation bk := [eqType of bkey F 1 unit_eqType].
Let b1 : bk := bone F 1 (tt : unit_eqType).
Definition one1 : pge F 1 0 := Pge 1%:M false false (Some 1%:M) false.
Lemma apply_one1 (vs : seq 'rV[F]_1) : uniq vs -> bloch_apply tt id one1 (hop vs) = Ok (hop vs).
Proof.
move=> u; rewrite /bloch_apply /pge_apply_bloch /= /bloch_rotate invmx1 dict_of_uniq; last first.
  rewrite /dkeys /= -!map_comp.
  rewrite (eq_map (f2 := fun v : 'rV[F]_1 => (v, tt) : bk)) => [|v /=]; last by rewrite /brot /= mulmx1.
  by rewrite map_inj_uniq // => x y [].
rewrite /mmap /= /hop -!map_comp; congr (Ok (Mk _ _ _)); apply: eq_map => v /=.
by rewrite mul1mx dagger1 mulmx1 /brot /= mulmx1.
Qed.

Example C37_cosine (v := const_mx 1 : 'rV[F]_1) :
  symmetry_group [:: one1; inversion1 F] /\
  symmetrize_monomial b1 (fun g m => bloch_apply tt id g m) (hop [:: v]) [:: one1; inversion1 F] =
  Ok (mscale (2%:R^-1) (hop [:: v; - v])).
Proof.
have n1 : (1%:M : 'M[F]_1) != (-1)%:M.
  apply/eqP => /matrixP /(_ 0 0) /eqP; rewrite !mxE eqxx /= -subr_eq0 opprK -(natrD _ 1 1).
  by rewrite pnatr_eq0.
have uN : ((-1)%:M : 'M[F]_1) \in unitmx by rewrite unitmxE det_scalar expr1 unitrN1.
have same (g h : pge F 1 0) : pR g = pR h -> pconj g = pconj h -> panti g = panti h -> pU g = pU h -> phase_same g h.
  by move=> *; apply: pge_phase_same.
split; first split.
- by move=> g [<-|[<-|//]]; split; rewrite ?unitmx1 //; apply: unitary1.
- by move=> g h [<-|[<-|//]] [<-|[<-|//]].
- by split; [move=> h [<-|//] [[e _ _] _]; move/eqP: n1; apply|].
- move=> g h [<-|[<-|//]] [<-|[<-|//]].
  + by exists one1; [left|apply: same; rewrite /= ?mul1mx].
  + by exists (inversion1 F); [right; left|apply: same; rewrite /= ?mul1mx].
  + by exists (inversion1 F); [right; left|apply: same; rewrite /= ?mulmx1].
  + by exists one1; [left|apply: same; rewrite /= ?mulmx1 // -scalar_mxM mulrNN mulr1].
- by [].
have nv := neq1N F.
rewrite /symmetrize_monomial [mapM _ _]/(do y <- bloch_apply tt id one1 (hop [:: v]); do ys <- mapM (fun g => bloch_apply tt id g (hop [:: v])) [:: inversion1 F]; Ok (y :: ys)).
rewrite apply_one1 // mapM1 apply_inv1 //= /madd /= /add_data /= /pk_eq /= !xpair_eqE /= !andbT.
by rewrite [- v == v]eq_sym (negPf nv).
Qed.
End Example.

Print Assumptions C37_models.
Print Assumptions C37_bloch_models.
Print Assumptions C37_idempotent.
Print Assumptions C37_linear.
Print Assumptions C37_default_comparison_refuted.
