(* C78, C90, C91: structure constants, Killing form, Casimir operator, centre *)
From mathcomp Require Import all_ssreflect all_algebra ssrAC.
From mathcomp Require Import complex.
From Verif Require Import Prelude LinSpan Star Nullspace PropNull SymBlocks PropBlocks Lie.

Set Implicit Arguments.
Unset Strict Implicit.
Unset Printing Implicit Defensive.
Import Order.Theory GRing.Theory Num.Theory.
Local Open Scope ring_scope.

Lemma jacobi_ab (V : zmodType) (x1 x2 x3 x4 x5 x6 : V) :
  x1 - x2 - (x3 - x4) = x1 - x5 - (x6 - x4) - (x2 - x6 - (x5 - x3)).
Proof.
rewrite !opprB [RHS](AC ((2*2)*(2*2)) ((1*8)*(3*6)*((2*5)*(4*7)))) /= !addNr addr0 addr0 //.
Qed.

Section Lie.
Variables (K : fieldType) (m N : nat) (gens : 'I_m -> 'M[K]_N).
Variable lsq : 'M[K]_(N * N, m) -> 'cV[K]_(N * N) -> 'cV[K]_m.
Local Notation lie A B := (A *m B - B *m A).

(* ---- specification ---- *)
Definition independent := forall c : 'I_m -> K, \sum_a c a *: gens a = 0 -> forall a, c a = 0.
(* the best approximation is exact if there is an exact one *)
Definition lstsq_contract := forall (B : 'M[K]_(N * N, m)) (v : 'cV[K]_(N * N)) (c : 'cV[K]_m), B *m c = v -> B *m lsq B v = v.
Definition closed := forall a b, exists c : 'I_m -> K, lie (gens a) (gens b) = \sum_e c e *: gens e.

Lemma bas_mul (c : 'cV[K]_m) : bas gens *m c = flat (\sum_e c e 0 *: gens e).
Proof.
apply/colP => x; rewrite !mxE; case/mxvec_indexP: x => i j; rewrite mxvecE summxE; apply: eq_bigr => e _.
by rewrite !mxE mxvecE mulrC.
Qed.
Lemma flat_inj : injective (@flat K N).
Proof. by move=> A B /trmx_inj /(can_inj mxvecK). Qed.
Lemma indep_rank : independent -> \rank (bas gens) = m.
Proof.
move=> ind; rewrite -mxrank_tr; apply/eqP; apply: inj_row_free => v v0.
have : bas gens *m v^T = 0 by rewrite -[bas gens]trmxK -trmx_mul v0 trmx0.
rewrite bas_mul => e; have z : \sum_a v^T a 0 *: gens a = 0.
  by apply: flat_inj; rewrite e /flat raddf0 trmx0.
by apply/rowP => a; have := ind _ z a; rewrite !mxE.
Qed.

Lemma indep_eq (c c' : 'I_m -> K) : independent -> \sum_a c a *: gens a = \sum_a c' a *: gens a -> forall a, c a = c' a.
Proof.
move=> ind e a; apply/eqP; rewrite -subr_eq0; apply/eqP; apply: (ind (fun a => c a - c' a)).
by rewrite (eq_bigr _ (fun a _ => scalerBl _ _ _)) sumrB e subrr.
Qed.

Hypotheses (ind : independent) (lsqP : lstsq_contract).

Lemma struct_constP C : struct_const gens lsq = Ok C ->
  forall a b, lie (gens a) (gens b) = \sum_e C a b e *: gens e.
Proof.
rewrite /struct_const; case: ifP => // /negbT; rewrite negb_exists => /forallP h [<-] a b.
apply: flat_inj; rewrite -[RHS]bas_mul; move: (h a); rewrite negb_exists => /forallP /(_ b).
rewrite -/(commutator (gens a) (gens b)); set v := flat _; rewrite /outside indep_rank // eqxx /= negb_and -leqNgt.
case/orP=> [le|]; last by rewrite negbK => /eqP.
have full : row_full (bas gens)^T.
  by rewrite /row_full mxrank_tr eqn_leq rank_leq_row indep_rank.
have /submxP [D e] : (v^T <= (bas gens)^T)%MS by apply: submx_full.
by apply/esym/(@lsqP _ _ D^T); rewrite -[bas gens]trmxK -trmx_mul -e trmxK.
Qed.

(* C91: the check of closure, for independent generators *)
Theorem C91_closed : (exists C, struct_const gens lsq = Ok C) <-> closed.
Proof.
split=> [[C /struct_constP e] a b|cl]; first by exists (C a b); exact: e.
rewrite /struct_const; case: ifP => [/existsP[a /existsP[b]]|_]; last by eexists.
case/and3P=> _ _ /negP []; apply/eqP; have [c e] := cl a b.
apply: (@lsqP _ _ (\col_e c e)); rewrite bas_mul /commutator e; congr flat; apply: eq_bigr => a' _; by rewrite mxE.
Qed.
Theorem C91_error : ~ closed -> struct_const gens lsq = Err ValueError.
Proof. by move=> nc; rewrite /struct_const; case: ifP => // h; case: nc; apply/C91_closed; rewrite /struct_const h; eexists. Qed.

(* ---- the adjoint representation ---- *)
Variable C : 'I_m -> 'I_m -> 'I_m -> K.
Hypothesis CE : forall a b, lie (gens a) (gens b) = \sum_e C a b e *: gens e.
Definition ad a : 'M[K]_m := \matrix_(e, d) C a d e.

Lemma ad_lie a b : \sum_e C a b e *: ad e = lie (ad a) (ad b).
Proof.
apply/matrixP => f d; rewrite summxE !mxE.
have l1 : lie (lie (gens a) (gens b)) (gens d) = \sum_f (\sum_e C a b e * C e d f) *: gens f.
  rewrite CE mulmx_suml mulmx_sumr -sumrB.
  rewrite (eq_bigr (fun e => \sum_f (C a b e * C e d f) *: gens f)) => [|e _]; last first.
    by rewrite -scalemxAl -scalemxAr -scalerBr CE scaler_sumr; apply: eq_bigr => g _; rewrite scalerA.
  by rewrite exchange_big; apply: eq_bigr => g _; rewrite scaler_suml.
have l2 x y : lie (gens x) (lie (gens y) (gens d)) = \sum_f (\sum_e C x e f * C y d e) *: gens f.
  rewrite CE mulmx_suml mulmx_sumr -sumrB.
  rewrite (eq_bigr (fun e => \sum_f (C x e f * C y d e) *: gens f)) => [|e _]; last first.
    by rewrite -scalemxAl -scalemxAr -scalerBr CE scaler_sumr; apply: eq_bigr => g _; rewrite scalerA mulrC.
  by rewrite exchange_big; apply: eq_bigr => g _; rewrite scaler_suml.
have jac : lie (lie (gens a) (gens b)) (gens d) = lie (gens a) (lie (gens b) (gens d)) - lie (gens b) (lie (gens a) (gens d)).
  by rewrite !mulmxBl !mulmxBr !mulmxA; apply: jacobi_ab.
have e := jac; rewrite l1 !l2 -sumrB in e.
rewrite (eq_bigr (fun e => C a b e * C e d f)) => [|g _]; last by rewrite !mxE.
rewrite [X in _ = X - _](eq_bigr (fun e => C a e f * C b d e)) => [|g _]; last by rewrite !mxE.
rewrite [X in _ = _ - X](eq_bigr (fun e => C b e f * C a d e)) => [|g _]; last by rewrite !mxE.
have := @indep_eq (fun f => \sum_e C a b e * C e d f) (fun f => \sum_e C a e f * C b d e - \sum_e C b e f * C a d e) ind.
by apply; rewrite e; apply: eq_bigr => g _; rewrite scalerBl.
Qed.

Definition kil : 'M[K]_m := \matrix_(a, b) \sum_d \sum_e C a d e * C b e d.
Lemma kilE a b : kil a b = \tr (ad a *m ad b).
Proof.
rewrite mxE exchange_big; apply: eq_bigr => e _; rewrite mxE; apply: eq_bigr => d _.
by rewrite !mxE.
Qed.
Lemma kil_sym a b : kil a b = kil b a. Proof. by rewrite !kilE mxtrace_mulC. Qed.
Lemma kil_inv a b c : \sum_e C c a e * kil e b + \sum_e C c b e * kil a e = 0.
Proof.
have e1 : \sum_e C c a e * kil e b = \tr (lie (ad c) (ad a) *m ad b).
  rewrite -ad_lie mulmx_suml (big_morph _ (@mxtraceD _ _) (@mxtrace0 _ _)); apply: eq_bigr => e _.
  by rewrite kilE -scalemxAl mxtraceZ.
have e2 : \sum_e C c b e * kil a e = \tr (ad a *m lie (ad c) (ad b)).
  rewrite -ad_lie mulmx_sumr (big_morph _ (@mxtraceD _ _) (@mxtrace0 _ _)); apply: eq_bigr => e _.
  by rewrite kilE -scalemxAr mxtraceZ.
rewrite e1 e2 mulmxBl mulmxBr !raddfB /= !mulmxA addrA subrK -(mulmxA (ad c)) (mxtrace_mulC (ad c)).
by rewrite subrr.
Qed.
Lemma kil_ad c : (ad c)^T *m kil = - (kil *m ad c).
Proof.
apply/matrixP => a b; apply/eqP; rewrite [in X in _ == X]mxE -addr_eq0; apply/eqP.
rewrite -[RHS](kil_inv a b c); congr (_ + _); rewrite mxE; apply: eq_bigr => e _.
  by congr (_ * _); rewrite !mxE.
by rewrite mulrC; congr (_ * _); rewrite !mxE.
Qed.
Lemma casimir_comm c : kil \in unitmx ->
  gens c *m (\sum_a \sum_b invmx kil a b *: (gens a *m gens b)) = (\sum_a \sum_b invmx kil a b *: (gens a *m gens b)) *m gens c.
Proof.
move=> uk; set G := invmx kil.
have adG : ad c *m G = - (G *m (ad c)^T).
  have e : G *m ((ad c)^T *m kil) *m G = G *m (ad c)^T by rewrite -!mulmxA mulmxV // mulmx1.
  by rewrite -e kil_ad mulmxN mulNmx opprK mulmxA mulVmx // mul1mx.
apply/eqP; rewrite -subr_eq0; apply/eqP; rewrite mulmx_suml mulmx_sumr -sumrB.
have step a b : gens c *m (gens a *m gens b) - gens a *m gens b *m gens c =
    \sum_e (ad c e a *: (gens e *m gens b) + ad c e b *: (gens a *m gens e)).
  have -> : gens c *m (gens a *m gens b) - gens a *m gens b *m gens c =
      lie (gens c) (gens a) *m gens b + gens a *m lie (gens c) (gens b).
    by rewrite mulmxBl mulmxBr !mulmxA addrA subrK.
  rewrite !CE mulmx_suml mulmx_sumr -big_split; apply: eq_bigr => e _.
  by rewrite -scalemxAl -scalemxAr /ad ![(\matrix_(e, d) C c d e) _ _]mxE.
transitivity (\sum_a \sum_b (ad c *m G + G *m (ad c)^T) a b *: (gens a *m gens b)); last first.
  by rewrite adG addNr big1 // => a _; rewrite big1 // => b _; rewrite mxE scale0r.
transitivity (\sum_a \sum_b \sum_e (G a b * ad c e a) *: (gens e *m gens b) + \sum_a \sum_b \sum_e (G a b * ad c e b) *: (gens a *m gens e)).
  rewrite -big_split; apply: eq_bigr => a _; rewrite mulmx_suml mulmx_sumr -sumrB -big_split; apply: eq_bigr => b _.
  rewrite -scalemxAl -scalemxAr -scalerBr step scaler_sumr /= -big_split; apply: eq_bigr => e _ /=.
  by rewrite scalerDr !scalerA.
transitivity (\sum_a \sum_b (ad c *m G) a b *: (gens a *m gens b) + \sum_a \sum_b (G *m (ad c)^T) a b *: (gens a *m gens b)).
  congr (_ + _).
    rewrite exchange_big [RHS]exchange_big; apply: eq_bigr => b _ /=; rewrite exchange_big; apply: eq_bigr => e _ /=.
    by rewrite [in RHS]mxE scaler_suml; apply: eq_bigr => a _; rewrite mulrC.
  apply: eq_bigr => a _; rewrite exchange_big; apply: eq_bigr => e _ /=.
  by rewrite [in RHS]mxE scaler_suml; apply: eq_bigr => b _; rewrite [(ad c)^T b e]mxE.
rewrite -big_split; apply: eq_bigr => a _ /=; rewrite -big_split; apply: eq_bigr => b _ /=.
by rewrite -scalerDl [in RHS]mxE.
Qed.
End Lie.

(* C78 *)
Section C78.
Variables (K : fieldType) (m N : nat) (gens : 'I_m -> 'M[K]_N).
Variable lsq : 'M[K]_(N * N, m) -> 'cV[K]_(N * N) -> 'cV[K]_m.
Hypotheses (ind : independent gens) (lsqP : lstsq_contract lsq).
Theorem C78_killing g : killing gens lsq = Ok g ->
  exists2 C, forall a b, gens a *m gens b - gens b *m gens a = \sum_e C a b e *: gens e &
  [/\ g = \matrix_(a, b) \sum_d \sum_e C a d e * C b e d, g^T = g &
      forall a b c, \sum_e C c a e * g e b + \sum_e C c b e * g a e = 0].
Proof.
rewrite /killing; case E : (struct_const _ _) => [C|//] [<-]; exists C; first exact: struct_constP E.
have h := struct_constP ind lsqP E; split=> //; first by apply/matrixP => a b; rewrite [LHS]mxE; exact: (kil_sym C b a).
move=> a b c; exact: (kil_inv ind h a b c).
Qed.
Theorem C78_casimir Q : casimir gens lsq = Ok Q -> forall c, gens c *m Q = Q *m gens c.
Proof.
rewrite /casimir /killing; case E : (struct_const _ _) => [C|//] /=; case: ifP => // /negbFE u [<-] c.
have h := struct_constP ind lsqP E; exact: (@casimir_comm _ _ _ _ ind C h c u).
Qed.
End C78.

Section Pos.
Variable F : rcfType.
Local Notation C := F[i].
Lemma dag0 p q : dag (0 : 'M[C]_(p, q)) = 0.
Proof. by apply/matrixP => i j; rewrite !mxE conjc0. Qed.
Lemma tr_dag_eq0 p q (M : 'M[C]_(p, q)) : \tr (dag M *m M) = 0 -> M = 0.
Proof.
move=> t0; have ge j : 0 <= (dag M *m M) j j.
  by rewrite mxE sumr_ge0 // => i _; rewrite !mxE mulrC -sqr_normc exprn_ge0.
have ge2 i j : 0 <= dag M j i * M i j by rewrite !mxE mulrC -sqr_normc exprn_ge0.
apply/matrixP => i j; have := psumr_eq0P (fun j _ => ge j) t0 (i := j) isT; rewrite mxE => z.
have := psumr_eq0P (fun i _ => ge2 i j) z (i := i) isT; rewrite !mxE mulrC -sqr_normc => /eqP.
by rewrite sqrf_eq0 normr_eq0 => /eqP.
Qed.
Lemma flat_dot N (A B : 'M[C]_N) : (dag (flat A) *m flat B) 0 0 = \tr (dag A *m B).
Proof.
rewrite mxE (reindex _ (curry_mxvec_bij _ _)) /= /mxtrace.
rewrite (eq_bigr (fun j => \sum_i conjc (A i j) * B i j)) => [|j _]; last first.
  by rewrite mxE; apply: eq_bigr => i _; rewrite !mxE.
rewrite exchange_big pair_bigA; apply: eq_bigr => [[i j]] /= _.
by rewrite !mxE !mxvecE.
Qed.
End Pos.

(* C90: the centre of an algebra of Hermitian generators *)
Section C90.
Variables (F : rcfType) (m N : nat).
Local Notation C := F[i].
Local Notation id_ := [rmorphism of idfun].
Variables (gens : 'I_m -> 'M[C]_N) (lsq : 'M[C]_(N * N, m) -> 'cV[C]_(N * N) -> 'cV[C]_m).
Variables (svd : 'M[C]_m -> seq F * 'M[C]_m) (atol : F).
Hypotheses (ind : independent gens) (lsqP : lstsq_contract lsq) (herm : forall a, dag (gens a) = gens a).
Hypotheses (svdP : forall g, exists u, is_svd (complex_star F) g u (svd g).1 (svd g).2) (a0 : 0 <= atol).
Local Notation lie A B := (A *m B - B *m A).

Section Ad.
Variable S : 'I_m -> 'I_m -> 'I_m -> C.
Hypothesis SE : forall a b, lie (gens a) (gens b) = \sum_e S a b e *: gens e.
Let V := bas gens.
Let G : 'M[C]_m := dag V *m V.
Lemma gramE p q : G p q = \tr (gens p *m gens q).
Proof.
rewrite -[X in X *m _]herm -flat_dot !mxE; apply: eq_bigr => x _; rewrite !mxE //.
Qed.
Lemma V_inj q (A : 'M[C]_(m, q)) : V *m A = 0 -> A = 0.
Proof.
have /row_fullP [W WV] : row_full V by rewrite /row_full indep_rank.
by move=> /(congr1 (mulmx W)); rewrite mulmxA WV mul1mx mulmx0.
Qed.
Lemma G_herm : dag G = G. Proof. by rewrite dag_mul dagK. Qed.
Lemma G_unit : G \in unitmx.
Proof.
rewrite -row_free_unit; apply: inj_row_free => v v0.
have e : V *m dag v = 0.
  by apply: tr_dag_eq0; rewrite dag_mul dagK mulmxA -(mulmxA v) -/G v0 mul0mx mxtrace0.
by rewrite -[v]dagK (V_inj e) dag0.
Qed.
Lemma G_ad b : G *m ad S b = dag (ad S b) *m G.
Proof.
have tr_s (f : 'I_m -> 'M[C]_N) : \tr (\sum_e f e) = \sum_e \tr (f e) := big_morph _ (@mxtraceD _ _) (@mxtrace0 _ _) _ _ _.
apply/matrixP => p q.
have -> : (G *m ad S b) p q = \tr (gens p *m lie (gens b) (gens q)).
  rewrite SE mulmx_sumr tr_s mxE; apply: eq_bigr => e _.
  by rewrite gramE -scalemxAr mxtraceZ mulrC; congr (_ * _); rewrite mxE.
have -> : (dag (ad S b) *m G) p q = \tr (dag (lie (gens b) (gens p)) *m gens q).
  rewrite SE dag_sum mulmx_suml tr_s mxE; apply: eq_bigr => e _.
  by rewrite gramE dagZ herm -scalemxAl mxtraceZ; congr (_ * _); rewrite !mxE.
rewrite dagB !dag_mul !herm mulmxBr mulmxBl !raddfB /= !mulmxA; congr (_ - _).
by rewrite -(mulmxA (gens b)) [RHS]mxtrace_mulC.
Qed.
Definition adv (v : 'rV[C]_m) : 'M[C]_m := \sum_b v 0 b *: ad S b.
Lemma adv_lie v d : lie (lincomb gens v) (gens d) = \sum_e adv v e d *: gens e.
Proof.
rewrite mulmx_suml mulmx_sumr -sumrB (eq_bigr (fun b => \sum_e (v 0 b * S b d e) *: gens e)) => [|b _]; last first.
  by rewrite -scalemxAl -scalemxAr -scalerBr SE scaler_sumr; apply: eq_bigr => e _; rewrite scalerA.
rewrite exchange_big; apply: eq_bigr => e _; rewrite -scaler_suml summxE; congr (_ *: _); apply: eq_bigr => b _.
by rewrite !mxE.
Qed.
Lemma centre_ker v : (forall a, lincomb gens v *m gens a = gens a *m lincomb gens v) <-> kil S *m v^T = 0.
Proof.
have trE b : (kil S *m v^T) b 0 = \tr (ad S b *m adv v).
  rewrite mxE mulmx_sumr (big_morph _ (@mxtraceD _ _) (@mxtrace0 _ _)); apply: eq_bigr => c _.
  by rewrite kilE -scalemxAr mxtraceZ mulrC [v^T c 0]mxE.
split=> [cm|z].
  have A0 : adv v = 0.
    apply/matrixP => e d; have := adv_lie v d; rewrite cm subrr => /esym z.
    by rewrite (ind z e) mxE.
  by apply/colP => b; rewrite trE A0 mulmx0 mxtrace0 mxE.
pose A := adv v; pose w : 'rV[C]_m := conjM v.
have GA : G *m adv w = dag A *m G.
  rewrite dag_sum mulmx_sumr mulmx_suml; apply: eq_bigr => b _.
  by rewrite -scalemxAr G_ad dagZ -scalemxAl mxE.
have t0 : \tr (adv w *m A) = 0.
  rewrite mulmx_suml (big_morph _ (@mxtraceD _ _) (@mxtrace0 _ _)) big1 // => b _.
  by rewrite -scalemxAl mxtraceZ -trE z [X in _ * X]mxE mulr0.
have GV : invmx G *m G = 1%:M by rewrite mulVmx ?G_unit.
have dGV : dag (invmx G) = invmx G.
  have e : dag (invmx G) *m G = 1%:M by rewrite -{2}G_herm -dag_mul mulmxV ?G_unit // dag1.
  by rewrite -[LHS]mulmx1 -(mulmxV G_unit) mulmxA e mul1mx.
have wE : adv w = invmx G *m dag A *m G by rewrite -mulmxA -GA mulmxA GV mul1mx.
have B0 : V *m A = 0.
  apply: (can_inj (@dagK _ _ _)); rewrite dag0.
  suff /V_inj h : V *m (invmx G *m dag (V *m A)) = 0.
    by rewrite -[LHS]mul1mx -(mulmxV G_unit) -mulmxA h mulmx0.
  apply: tr_dag_eq0; set X := _ *m dag _.
  have -> : dag (V *m X) *m (V *m X) = V *m A *m (invmx G *m dag A *m dag V).
    rewrite dag_mul mulmxA -(mulmxA (dag X)) -/G /X dag_mul dagK dGV -(mulmxA _ _ G) GV mulmx1.
    by rewrite dag_mul !mulmxA.
  by rewrite mxtrace_mulC mulmxA -(mulmxA _ (dag V)) -/G -[RHS]t0 wE.
have A0 : A = 0 := V_inj B0.
move=> a; apply/eqP; rewrite -subr_eq0; apply/eqP; rewrite adv_lie -/A A0 big1 // => e _.
by rewrite mxE scale0r.
Qed.
End Ad.

Lemma lincomb_comb v : lincomb gens v = comb id_ [seq gens a | a <- enum 'I_m] (rowf v).
Proof.
rewrite /comb size_map size_enum_ord; apply: eq_bigr => j _.
by rewrite (nth_map j) ?size_enum_ord // nth_ord_enum rowfE.
Qed.
Lemma lincomb_inj v w : lincomb gens v = lincomb gens w -> v = w.
Proof. by move=> /(indep_eq ind) h; apply/rowP => a; apply: h. Qed.
Lemma lincombP c : \sum_a c a *: gens a = lincomb gens (\row_a c a).
Proof. by apply: eq_bigr => a _; rewrite mxE. Qed.
Lemma comb_lincomb (X : seq 'rV[C]_m) c : comb id_ [seq lincomb gens v | v <- X] c = lincomb gens (comb id_ X c).
Proof.
apply: (comb_map (f := lincomb gens)) => [|x y|a x]; rewrite /lincomb ?scaler_sumr -?big_split /=.
- by rewrite big1 // => b _; rewrite mxE scale0r.
- by apply: eq_bigr => b _; rewrite mxE scalerDl.
- by apply: eq_bigr => b _; rewrite mxE scalerA.
Qed.

Lemma lincomb0 : lincomb gens 0 = 0. Proof. by rewrite /lincomb big1 // => b _; rewrite mxE scale0r. Qed.
Lemma indep_lincomb X : indep id_ X -> indep id_ [seq lincomb gens v | v <- X].
Proof. by move=> iX f e j; rewrite size_map; apply: (iX f); apply: lincomb_inj; rewrite -comb_lincomb e lincomb0. Qed.

Definition gap := forall g i, killing gens lsq = Ok g -> (svd g).1`_i <= atol -> (svd g).1`_i = 0.
Lemma separateP gc gs : separate_lie_algebra gens lsq svd atol = Ok (gc, gs) -> gap ->
  exists S c s, [/\ struct_const gens lsq = Ok S, gc = [seq lincomb gens v | v <- c], gs = [seq lincomb gens v | v <- s] &
   [/\ is_basis id_ c (fun v => kil S *m v^T = 0), is_basis id_ (c ++ s) (fun=> True),
       (forall i j, (i < size c)%N -> (j < size s)%N -> rdot (complex_star F) s`_j c`_i = 0) &
       forall v, span id_ s v <-> exists w, v = w *m conjM (kil S)]].
Proof.
case K : (killing gens lsq) => [g|]; rewrite /separate_lie_algebra K //; cbn [Prelude.bind].
have [S E gE] : exists2 S, struct_const gens lsq = Ok S & g = kil S.
  by move: K; rewrite /killing; case: (struct_const _ _) => [S|//] /= [<-]; exists S.
have [u H] := svdP g.
case D : (nullspace_dense (complex_star F) (svd g).1 (svd g).2 atol) => [c s] [<- <-] gp; exists S, c, s; split=> //.
have gap' i := gp g i K; have := C27_complement_conj H a0 gap'.
have := C26_exact H a0 gap'; have [] := C26_orthonormal H a0; rewrite D gE => sz on B1 B2 B3; split=> // i j li lj.
rewrite /= in sz on; rewrite size_cat in sz.
have l1 : (size c + j < m)%N by rewrite -[X in (_ < X)%N]sz ltn_add2l.
have l2 : (i < m)%N by rewrite -[X in (_ < X)%N]sz ltn_addr.
have := on _ _ l1 l2.
rewrite !nth_cat li ltnNge leq_addr /= addKn => ->.
by rewrite (_ : (_ == i) = false) //; apply/negP => /eqP e; move: li; rewrite -e ltnNge leq_addr.
Qed.
Definition in_algebra (Z : 'M[C]_N) := exists c : 'I_m -> C, Z = \sum_a c a *: gens a.
Definition central (Z : 'M[C]_N) := forall a, Z *m gens a = gens a *m Z.

(* the first component is a basis of the centre, both together a basis of the algebra *)
Theorem C90_centre gc gs : separate_lie_algebra gens lsq svd atol = Ok (gc, gs) -> gap ->
  is_basis id_ gc (fun Z => in_algebra Z /\ central Z) /\ is_basis id_ (gc ++ gs) in_algebra.
Proof.
move=> /separateP sP /sP [S [c [s [E -> -> [B2 B1 _ _]]]]]; have SE := struct_constP ind lsqP E; split.
  split=> [|Z]; first exact: indep_lincomb B2.1.
  split=> [[[f ->] cm]|[f ->]].
    rewrite lincombP in cm *; have /(B2.2 _).1 [h ->] := (centre_ker SE _).1 cm.
    by exists h; rewrite comb_lincomb.
  rewrite comb_lincomb; split; first by eexists.
  by apply/(centre_ker SE)/B2.2; eexists.
rewrite -map_cat; split=> [|Z]; first exact: indep_lincomb B1.1.
split=> [[f ->]|[f ->]]; last by rewrite comb_lincomb; eexists.
by rewrite lincombP; have [h ->] := (B1.2 (\row_a f a)).1 I; exists h; rewrite comb_lincomb.
Qed.

Lemma algebra_comm Z : in_algebra Z -> forall W, central W -> W *m Z = Z *m W.
Proof.
case=> f -> W cW; rewrite mulmx_suml mulmx_sumr; apply: eq_bigr => a _.
by rewrite -scalemxAl -scalemxAr cW.
Qed.

(* the second component contains no central element *)
Theorem C92_no_centre gc gs Z : separate_lie_algebra gens lsq svd atol = Ok (gc, gs) -> gap ->
  span id_ gs Z -> (forall W, List.In W gs -> Z *m W = W *m Z) -> Z = 0.
Proof.
move=> Es gp sZ cZ; have [Bc Ba] := C90_centre Es gp.
have aZ : in_algebra Z.
  by apply/Ba.2; apply: span_sub sZ => x xs; apply: span_mem; apply/In_cat; right.
have comm W : span id_ (gc ++ gs) W -> Z *m W = W *m Z.
  case=> f ->; rewrite mulmx_suml mulmx_sumr; apply: eq_bigr => j _; rewrite -scalemxAl -scalemxAr; congr (_ *: _).
  have /In_cat [h|h] : List.In (gc ++ gs)`_j (gc ++ gs) by apply: nth_In.
    have /(Bc.2 _).2 [_ cW] : span id_ gc (gc ++ gs)`_j by apply: span_mem.
    by apply/esym; apply: algebra_comm.
  exact: cZ.
have zc : central Z.
  move=> a; apply: comm; apply/Ba.2; exists (fun b => (b == a)%:R); rewrite (bigD1 a) //= eqxx scale1r big1 ?addr0 //.
  by move=> b /negPf ->; rewrite scale0r.
have /(Bc.2 _).1 [f eF] : in_algebra Z /\ central Z by [].
case: sZ => h eH; pose q j := if (j < size gc)%N then f j else - h (j - size gc)%N.
have z : comb id_ (gc ++ gs) q = 0.
  rewrite comb_cat (@eq_comb _ _ _ _ _ q f) => [|j lj]; last by rewrite /q lj.
  rewrite (@eq_comb _ _ _ _ gs _ (fun j => - h j)) => [|j lj]; last by rewrite /q ltnNge leq_addr /= addKn.
  by rewrite combN -eF -eH subrr.
have q0 := Ba.1 _ z; rewrite eF -(comb0 id_ gc); apply: eq_comb => j lj.
by have := q0 j; rewrite size_cat ltn_addr // /q lj => ->.
Qed.

(* for generators that are orthogonal and have the same norm it contains all commutators *)
Theorem C92_ideal gc gs (k : C) : separate_lie_algebra gens lsq svd atol = Ok (gc, gs) -> gap ->
  (forall a b, \tr (gens a *m gens b) = k *+ (a == b)) ->
  forall X Y, in_algebra X -> in_algebra Y -> span id_ gs (lie X Y).
Proof.
move=> /separateP sP /sP [S [c [s [E _ -> [B2 B1 on _]]]]] orth X Y aX aY.
have SE := struct_constP ind lsqP E.
have [d eD] : exists d, lie X Y = lincomb gens d.
  case: aX => x ->; case: aY => y ->.
  exists (\row_e \sum_a \sum_b x a * y b * S a b e); rewrite -lincombP.
  rewrite mulmx_suml mulmx_sumr -sumrB.
  rewrite (eq_bigr (fun a => \sum_e (\sum_b x a * y b * S a b e) *: gens e)) => [|a _].
    by rewrite exchange_big; apply: eq_bigr => e _; rewrite scaler_suml.
  rewrite -scalemxAl mulmx_sumr -scalemxAr mulmx_suml -scalerBr -sumrB scaler_sumr.
  rewrite (eq_bigr (fun b => \sum_e (x a * y b * S a b e) *: gens e)) => [|b _]; last first.
    rewrite -scalemxAl -scalemxAr -scalerBr SE scalerA scaler_sumr; apply: eq_bigr => e _; by rewrite scalerA.
  by rewrite exchange_big; apply: eq_bigr => e _; rewrite scaler_suml.
have [f ef] := (B1.2 d).1 I; rewrite comb_cat in ef; move: ef; set dc := comb _ c _; set ds := comb _ s _ => ef.
have lD x y : lincomb gens (x + y) = lincomb gens x + lincomb gens y.
  by rewrite -big_split; apply: eq_bigr => b _; rewrite mxE scalerDl.
have zc : central (lincomb gens dc) by apply/(centre_ker SE)/B2.2; eexists.
have zd : central (dag (lincomb gens dc)).
  by move=> a; apply: (can_inj (@dagK _ _ _)); rewrite !dag_mul dagK herm zc.
have on2 : \tr (dag (lincomb gens dc) *m lincomb gens ds) = 0.
  have trs n (g : 'I_n -> 'M[C]_N) : \tr (\sum_e g e) = \sum_e \tr (g e) := big_morph _ (@mxtraceD _ _) (@mxtrace0 _ _) _ _ _.
  transitivity (k * rdot (complex_star F) ds dc).
    rewrite dag_sum mulmx_suml trs mulr_sumr; apply: eq_bigr => a _.
    rewrite mulmx_sumr trs (bigD1 a) //= dagZ herm -scalemxAl -scalemxAr !mxtraceZ orth eqxx big1 ?addr0 => [|b ba].
      by rewrite mulr1n mulrA mulrC; congr (_ * _); rewrite mulrC.
    by rewrite -scalemxAl -scalemxAr !mxtraceZ orth eq_sym (negPf ba) !mulr0.
  rewrite rdotE /dc /ds /comb mulmx_suml summxE big1 ?mulr0 // => j _.
  rewrite -scalemxAl mxE.
  rewrite (_ : (_ *m _) 0 0 = 0) ?mulr0 // -rdotE /rdot.
  rewrite (eq_bigr (fun l => \sum_(i < size c) conjc (f i) * (s`_j 0 l * conjc (c`_i 0 l)))) => [|l _]; last first.
    rewrite summxE (rmorph_sum (conjc_rmorphism F)) mulr_sumr; apply: eq_bigr => i _.
    by rewrite mxE (rmorphM (conjc_rmorphism F)) mulrCA.
  rewrite exchange_big big1 // => i _; rewrite -mulr_sumr -[X in _ * X]/(rdot (complex_star F) s`_j c`_i).
  by rewrite on ?mulr0.
have t0 : \tr (dag (lincomb gens dc) *m lie X Y) = 0.
  rewrite mulmxBr raddfB /= [in X in _ - X]mulmxA (algebra_comm aY zd) -(mulmxA Y) (mxtrace_mulC Y) mulmxA.
  by rewrite subrr.
have z0 : lincomb gens dc = 0.
  by apply: tr_dag_eq0; move: t0; rewrite eD ef lD mulmxDr raddfD /= on2 addr0.
by rewrite eD ef lD z0 add0r /ds -comb_lincomb; eexists.
Qed.
End C90.

Section Examples.
Variable F : rcfType.
Local Notation C := F[i].
Local Notation id_ := [rmorphism of idfun].
Local Notation j := ('i%C : C).
Definition mx2 (a b c d : C) : 'M[C]_2 := \matrix_(x, y) (if x == 0 then (if y == 0 then a else b) else (if y == 0 then c else d)).
Lemma mx2E (A : 'M[C]_2) : A = mx2 (A 0 0) (A 0 1) (A 1 0) (A 1 1).
Proof. by apply/matrixP => x y; rewrite mxE; case: (ord2P x) => ->; case: (ord2P y) => ->. Qed.
Lemma mx2_mul a b c d a' b' c' d' :
  mx2 a b c d *m mx2 a' b' c' d' = mx2 (a * a' + b * c') (a * b' + b * d') (c * a' + d * c') (c * b' + d * d').
Proof.
rewrite [LHS]mx2E !mxE !big_ord_recl !big_ord0 !mxE /= !addr0 //.
Qed.
Lemma mx2_add a b c d a' b' c' d' : mx2 a b c d + mx2 a' b' c' d' = mx2 (a + a') (b + b') (c + c') (d + d').
Proof. by rewrite [LHS]mx2E !mxE. Qed.
Lemma mx2_opp a b c d : - mx2 a b c d = mx2 (- a) (- b) (- c) (- d).
Proof. by rewrite [LHS]mx2E !mxE. Qed.
Lemma mx2_scale k a b c d : k *: mx2 a b c d = mx2 (k * a) (k * b) (k * c) (k * d).
Proof. by rewrite [LHS]mx2E !mxE. Qed.
Lemma mx2_dag a b c d : dag (mx2 a b c d) = mx2 (conjc a) (conjc c) (conjc b) (conjc d).
Proof. by rewrite [LHS]mx2E !mxE. Qed.
Lemma mx2_inj a b c d a' b' c' d' : mx2 a b c d = mx2 a' b' c' d' -> [/\ a = a', b = b', c = c' & d = d'].
Proof. by move=> /matrixP e; split; [have := e 0 0|have := e 0 1|have := e 1 0|have := e 1 1]; rewrite !mxE. Qed.
Lemma jj : j * j = -1. Proof. by rewrite -expr2 sqr_i. Qed.
Lemma conj_j : conjc j = - j. Proof. by simpc. Qed.
Lemma j0 : j != 0. Proof. by rewrite eq_complex /= oner_eq0 andbF. Qed.

(* generators of u(2): sigma_x, sigma_y, a projector, and one *)
Definition gens4 (a : 'I_4) : 'M[C]_2 :=
  match val a with 0%N => mx2 0 1 1 0 | 1%N => mx2 0 (- j) j 0 | 2%N => mx2 1 0 0 0 | _ => mx2 1 0 0 1 end.
Let o1 : 'I_4 := @Ordinal 4 1 isT.
Let o2 : 'I_4 := @Ordinal 4 2 isT.
Let o3 : 'I_4 := @Ordinal 4 3 isT.
Lemma sum4 (V : zmodType) (f : 'I_4 -> V) : \sum_a f a = f 0 + f o1 + f o2 + f o3.
Proof.
rewrite !big_ord_recl big_ord0 addr0 !addrA; congr (_ + f _ + f _ + f _); exact: val_inj.
Qed.
Lemma comb4 (c : 'I_4 -> C) : \sum_a c a *: gens4 a = mx2 (c o2 + c o3) (c 0 - j * c o1) (c 0 + j * c o1) (c o3).
Proof.
rewrite sum4 /gens4 /= !mx2_scale !mx2_add; congr mx2; rewrite ?mulr0 ?mulr1 ?addr0 ?add0r //; first by rewrite mulrN mulrC.
by rewrite mulrC.
Qed.
Lemma two0 : (2%:R : C) != 0. Proof. by rewrite pnatr_eq0. Qed.
Lemma gens4_indep : independent gens4.
Proof.
move=> c; rewrite comb4 (_ : 0 = mx2 0 0 0 0); last by rewrite [LHS]mx2E !mxE.
case/mx2_inj => e1 e2 e3 e4; move: e1; rewrite e4 addr0 => e1.
have c0 : c 0 = 0.
  have : (c 0 - j * c o1) + (c 0 + j * c o1) = 0 by rewrite e2 e3 addr0.
  by rewrite addrACA addNr addr0 -mulr2n -mulr_natl => /eqP; rewrite mulf_eq0 (negPf two0) => /eqP.
have c1 : c o1 = 0.
  by move: e3; rewrite c0 add0r => /eqP; rewrite mulf_eq0 (negPf j0) => /eqP.
by case=> -[|[|[|[|//]]]] l; [rewrite -[RHS]c0|rewrite -[RHS]c1|rewrite -[RHS]e1|rewrite -[RHS]e4]; congr (c _); apply: val_inj.
Qed.
Lemma gens4_all X : exists c : 'I_4 -> C, X = \sum_a c a *: gens4 a.
Proof.
exists (fun a => match val a with 0%N => 2%:R^-1 * (X 1 0 + X 0 1) | 1%N => 2%:R^-1 * - j * (X 1 0 - X 0 1) | 2%N => X 0 0 - X 1 1 | _ => X 1 1 end).
have h (x y : C) : 2%:R^-1 * (x + y) + 2%:R^-1 * (x - y) = x.
  by rewrite -mulrDr addrACA subrr addr0 -mulr2n -[x *+ 2]mulr_natl mulrA mulVf ?two0 // mul1r.
have e : j * (2%:R^-1 * - j * (X 1 0 - X 0 1)) = 2%:R^-1 * (X 1 0 - X 0 1).
  by rewrite mulrA mulrCA mulrN jj opprK mulr1.
rewrite comb4 /= {1}[X]mx2E e; congr mx2; rewrite ?subrK ?h //.
by rewrite -mulrN opprB [X 1 0 + _]addrC h.
Qed.
Lemma gens4_herm a : dag (gens4 a) = gens4 a.
Proof.
have cN : conjc (- j) = j by simpc.
by case: a => -[|[|[|[|//]]]] l; rewrite /gens4 /= mx2_dag ?conjc0 ?conjc1 ?cN ?conj_j.
Qed.

(* C92: the second component is not closed under commutation in general *)
Theorem C92_ideal_refuted : exists gens : 'I_4 -> 'M[C]_2,
  [/\ independent gens, forall a, dag (gens a) = gens a & closed gens] /\
  forall lsq svd atol, lstsq_contract lsq -> (forall g, exists u, is_svd (complex_star F) g u (svd g).1 (svd g).2) ->
    0 <= atol -> gap gens lsq svd atol ->
    exists gc gs, separate_lie_algebra gens lsq svd atol = Ok (gc, gs) /\
    exists X Y, [/\ span id_ gs X, span id_ gs Y & ~ span id_ gs (X *m Y - Y *m X)].
Proof.
have cl : closed gens4 by move=> a b; apply: gens4_all.
exists gens4; split; first by split; [exact: gens4_indep|exact: gens4_herm|].
move=> lsq svd atol lP sP a0 gp.
have [S0 E0] := (C91_closed gens4_indep lP).2 cl.
have [gc [gs Es]] : exists gc gs, separate_lie_algebra gens4 lsq svd atol = Ok (gc, gs).
  by rewrite /separate_lie_algebra /killing E0; cbn [Prelude.bind]; case: (nullspace_dense _ _ _ _) => c s; do 2!eexists.
exists gc, gs; split=> //.
have [S [c [s [E _ -> [B2 B1 _ B3]]]]] := separateP sP a0 Es gp.
have SE := struct_constP gens4_indep lP E.
have ker := centre_ker gens4_indep gens4_herm SE.
have k3 : kil S *m (delta_mx 0 o3 : 'rV[C]_4)^T = 0.
  apply/ker => a; have -> : lincomb gens4 (delta_mx 0 o3) = 1%:M.
    by rewrite [LHS]comb4 !mxE /= [RHS]mx2E !mxE /=; rewrite !mulr0 !add0r oppr0.
  by rewrite mul1mx mulmx1.
have s3 v : span id_ s v -> v 0 o3 = 0.
  case/B3=> w ->; rewrite mxE big1 // => b _; rewrite mxE.
  have /matrixP /(_ b 0) := k3; rewrite trmx_delta -colE [LHS]mxE [RHS]mxE => ->.
  by rewrite conjc0 mulr0.
have in_s (v : 'rV[C]_4) : v 0 o3 = 0 -> span id_ s v.
  move=> v3; have [f ef] := (B1.2 v).1 I; rewrite comb_cat in ef; move: ef; set vc := comb _ c _; set vs := comb _ s _ => ef.
  have s3' : vs 0 o3 = 0 by apply: s3; eexists.
  have c3 : vc 0 o3 = 0 by move: v3; rewrite ef mxE s3' addr0.
  have cm : forall a, lincomb gens4 vc *m gens4 a = gens4 a *m lincomb gens4 vc by apply/ker/B2.2; eexists.
  rewrite /lincomb comb4 c3 addr0 in cm.
  have := cm 0; have := cm o2; rewrite /gens4 /= !mx2_mul !mulr0 !mul0r !mulr1 !mul1r !addr0 !add0r.
  case/mx2_inj => _ z1 z2 _; case/mx2_inj => _ z3 _ _.
  have vc0 : vc = 0.
    have := gens4_indep (c := fun a => vc 0 a); rewrite comb4 c3 addr0 z2 -z1 z3.
    rewrite (_ : mx2 0 0 0 0 = 0); last by rewrite [RHS]mx2E !mxE.
    by move=> h; apply/rowP => a; rewrite (h erefl) mxE.
  by rewrite ef vc0 add0r /vs; eexists.
exists (lincomb gens4 (delta_mx 0 0)), (lincomb gens4 (delta_mx 0 o1)); split.
- by have [|h ->] := in_s (delta_mx 0 0); rewrite ?mxE // -comb_lincomb; eexists.
- by have [|h ->] := in_s (delta_mx 0 o1); rewrite ?mxE // -comb_lincomb; eexists.
case=> h; rewrite comb_lincomb; set u := comb _ s h => e.
have u3 : u 0 o3 = 0 by apply: s3; eexists.
move: e; rewrite /lincomb !comb4 u3 !mxE /= !mx2_mul mx2_opp mx2_add => /mx2_inj [_ _ _] /eqP.
rewrite !mulr0 !mulr1 !subr0 !addr0 !add0r !mul1r !mulr1 -opprD oppr_eq0 -mulr2n mulrn_eq0 /=.
by rewrite (negPf j0).
Qed.

(* su(2): the Casimir operator of the Pauli matrices *)
Definition gens3 (a : 'I_3) : 'M[C]_2 :=
  match val a with 0%N => mx2 0 1 1 0 | 1%N => mx2 0 (- j) j 0 | _ => mx2 1 0 0 (-1) end.
Let p1 : 'I_3 := @Ordinal 3 1 isT.
Let p2 : 'I_3 := @Ordinal 3 2 isT.
Lemma sum3 (V : zmodType) (f : 'I_3 -> V) : \sum_a f a = f 0 + f p1 + f p2.
Proof. by rewrite !big_ord_recl big_ord0 addr0 !addrA; congr (_ + f _ + f _); exact: val_inj. Qed.
Lemma comb3 (c : 'I_3 -> C) : \sum_a c a *: gens3 a = mx2 (c p2) (c 0 - j * c p1) (c 0 + j * c p1) (- c p2).
Proof.
rewrite sum3 /gens3 /= !mx2_scale !mx2_add; congr mx2; rewrite ?mulr0 ?mulr1 ?addr0 ?add0r ?mulrN1 //; first by rewrite mulrN mulrC.
by rewrite mulrC.
Qed.
Lemma gens3_indep : independent gens3.
Proof.
move=> c; rewrite comb3 (_ : 0 = mx2 0 0 0 0); last by rewrite [LHS]mx2E !mxE.
case/mx2_inj => e1 e2 e3 _.
have c0 : c 0 = 0.
  have : (c 0 - j * c p1) + (c 0 + j * c p1) = 0 by rewrite e2 e3 addr0.
  by rewrite addrACA addNr addr0 -mulr2n -mulr_natl => /eqP; rewrite mulf_eq0 (negPf two0) => /eqP.
have c1 : c p1 = 0.
  by move: e3; rewrite c0 add0r => /eqP; rewrite mulf_eq0 (negPf j0) => /eqP.
by case=> -[|[|[|//]]] l; [rewrite -[RHS]c0|rewrite -[RHS]c1|rewrite -[RHS]e1]; congr (c _); apply: val_inj.
Qed.
(* [sigma_a, sigma_b] = 2 i eps_abc sigma_c *)
Let S0 (a b e : 'I_3) : C := 2%:R * j *
  match val a, val b, val e with
  | 0%N, 1%N, 2%N | 1%N, 2%N, 0%N | 2%N, 0%N, 1%N => 1
  | 1%N, 0%N, 2%N | 2%N, 1%N, 0%N | 0%N, 2%N, 1%N => -1
  | _, _, _ => 0 end.
Lemma gens3_lie a b : gens3 a *m gens3 b - gens3 b *m gens3 a = \sum_e S0 a b e *: gens3 e.
Proof.
have t2 x : 2%:R * x = x + x :> C by rewrite mulr_natl mulr2n.
rewrite comb3; case: a => -[|[|[|//]]] la; case: b => -[|[|[|//]]] lb; rewrite /S0 /gens3 /= !mx2_mul mx2_opp mx2_add; congr mx2;
  rewrite ?(mulr0, mul0r, addr0, add0r, subr0, sub0r, mulr1, mul1r, mulrN1, mulN1r, mulrN, mulNr, opprK, oppr0, subrr) //;
  rewrite ?[j * (2%:R * j)]mulrCA ?jj ?mulrN1 ?t2 ?opprD ?opprK //.
Qed.
Example C78_example lsq : lstsq_contract lsq -> casimir gens3 lsq = Ok ((3%:R / 8%:R)%:M).
Proof.
move=> lP; have cl : closed gens3 by move=> a b; exists (S0 a b); exact: gens3_lie.
have [S E] := (C91_closed gens3_indep lP).2 cl.
have SE a b e : S a b e = S0 a b e.
  by apply: (indep_eq gens3_indep); rewrite -gens3_lie; exact/esym/(struct_constP gens3_indep lP E).
have kE : kil S = (8%:R)%:M.
  have m4 (x y : C) : 2%:R * j * x * (2%:R * j * y) = - (4%:R * (x * y)).
    by rewrite mulrACA [2%:R * j * _]mulrACA jj mulrN1 -natrM mulNr.
  apply/matrixP => a b; rewrite [LHS]mxE [RHS]mxE !sum3 !SE.
  have e8 : 8%:R = 4%:R + 4%:R :> C by rewrite -natrD.
  case: a => -[|[|[|//]]] la; case: b => -[|[|[|//]]] lb; rewrite /S0 /= !m4;
    by rewrite ?(mulr0, mul0r, mulr1, mul1r, mulrN1, mulN1r, opprK, oppr0, addr0, add0r) -?e8.
have e8 : (8%:R : C) != 0 by rewrite pnatr_eq0.
rewrite /casimir /killing E; cbn [Prelude.bind]; rewrite -/(kil S) kE unitmxE det_scalar unitrX ?unitfE //=.
have -> : invmx ((8%:R : C)%:M : 'M_3) = (8%:R^-1)%:M by rewrite invmx_scalar.
congr Ok; rewrite !sum3 !mxE /= !mulr0n !scale0r !addr0 !add0r !mulr1n -!scalerDr /gens3 /= !mx2_mul !mx2_add mx2_scale.
rewrite !mulr0 !mul0r !mulr1 mulrNN mulr1 mulrN mulNr jj opprK !addr0 !add0r -(addrA 1 1 1).
by rewrite [RHS]mx2E !mxE /= mulr1n mulr0n mulr0 mulrC.
Qed.
End Examples.
Print Assumptions C78_killing.
Print Assumptions C78_casimir.
Print Assumptions C90_centre.
Print Assumptions C91_closed.
Print Assumptions C91_error.
Print Assumptions C92_no_centre.
Print Assumptions C92_ideal.
Print Assumptions C92_ideal_refuted.
