(* Rotations and symmetries of lines in three dimensions, for C105 *)
From mathcomp Require Import all_ssreflect all_algebra zify.
From mathcomp Require Import complex.
From Verif Require Import Prelude PySet GroupGen GroupGenProofs GroupSpec PGE Spin Factories LinSpan NullSpec Complement RingTac.
From Verif Require PropFactories.
From Verif Require Import LLL CVP Bravais PropBravais PropBravais2 Bravais3.

Set Implicit Arguments.
Unset Strict Implicit.
Unset Printing Implicit Defensive.
Import Order.TTheory GRing.Theory Num.Theory.
Local Open Scope ring_scope.

(* equal up to the sign *)
Section Sign.
Variables (F : rcfType) (d : nat).
Implicit Types (u v w : 'rV[F]_d) (R : 'M[F]_d).
Definition pm u v := u = v \/ u = - v.
Lemma pm_refl u : pm u u. Proof. by left. Qed.
Lemma pmC u v : pm u v -> pm v u. Proof. by case=> ->; [left | right; rewrite opprK]. Qed.
Lemma pmT u v w : pm u v -> pm v w -> pm u w.
Proof. by case=> -> [->|->]; rewrite ?opprK; [left | right | right | left]. Qed.
Lemma pmA R u v : pm u v -> pm (act R u) (act R v).
Proof. by case=> ->; [left | right; rewrite actN]. Qed.
Lemma pmq u v : pm u v -> dot u u = dot v v. Proof. by case=> ->; rewrite ?dotNl ?dotNr ?opprK. Qed.
Lemma pm0 u v : pm u v -> v != 0 -> u != 0. Proof. by case=> ->; rewrite ?oppr_eq0. Qed.
Lemma pmdot u u' v : pm u u' -> dot u' v = 0 -> dot u v = 0.
Proof. by case=> -> e; rewrite ?dotNl e ?oppr0. Qed.
Lemma in_pm (s : seq 'rV[F]_d) v : reflect (exists2 w, w \in s & pm v w) (v \in pms s).
Proof.
rewrite mem_pms; apply: (iffP orP) => [[h|h]|[w ws [->|->]]]; rewrite ?opprK; [exists v|exists (- v)|left|right] => //.
  by left.
by right; rewrite opprK.
Qed.
Lemma dot_perp R u v : orthogonal R -> dot u v = 0 -> dot (act R u) (act R v) = 0.
Proof. by move=> o e; rewrite dot_act. Qed.
Lemma act1 v : act 1%:M v = v :> 'rV[F]_d. Proof. by rewrite /act trmx1 mulmx1. Qed.
Lemma actNM R v : act (- R) v = - act R v. Proof. by rewrite /act linearN mulmxN. Qed.
(* lines that are different *)
Lemma lines_cover (D s : seq 'rV[F]_d) : uniq (pms D) -> {subset D <= pms s} -> (size s <= size D)%N -> {subset s <= pms D}.
Proof.
move=> u sub le; have sub' : {subset pms D <= pms s}.
  by move=> v; rewrite mem_pms => /orP[/sub //|/sub]; rewrite pmsN.
have le' : (size (pms s) <= size (pms D))%N by rewrite !size_cat !size_map !addnn leq_double.
have [_ e] := uniq_min_size u sub' le'.
by move=> v vs; rewrite e mem_pms vs.
Qed.
Lemma uniq_pms_cons x (D : seq 'rV[F]_d) : x != 0 -> x \notin pms D -> uniq (pms D) -> uniq (pms (x :: D)).
Proof.
move=> x0 xD uD; have p : perm_eq (pms (x :: D)) (x :: - x :: pms D).
  by rewrite /pms /= perm_cons -cat1s perm_catCA.
rewrite (perm_uniq p) /= inE negb_or xD pmsN xD uD !andbT.
by rewrite -subr_eq0 opprK -mulr2n -scaler_nat scaler_eq0 pnatr_eq0.
Qed.
End Sign.

Section Space.
Variable F : rcfType.
Let Rg := [comRingType of F].
Add Ring RrS : (R_ring Rg).
Implicit Types (R A : 'M[F]_3) (a b u v w x y z : 'rV[F]_3) (c s : F).
Local Notation q v := (dot v v).
Local Notation cr := (@npcross F).

Lemma dot3 u v : dot u v = u 0 0 * v 0 0 + u 0 1 * v 0 1 + u 0 2 * v 0 2.
Proof. exact: PropFactories.dot3. Qed.
Lemma row3 u v : u 0 0 = v 0 0 -> u 0 1 = v 0 1 -> u 0 2 = v 0 2 -> u = v.
Proof.
by move=> e0 e1 e2; apply/rowP => -[[|[|[|i]]] p] //; [move: e0|move: e1|move: e2]; congr (u 0 _ = v 0 _); apply: val_inj.
Qed.
Lemma cr0 u v : cr u v 0 0 = u 0 1 * v 0 2 - u 0 2 * v 0 1. Proof. by rewrite mxE. Qed.
Lemma cr1 u v : cr u v 0 1 = u 0 2 * v 0 0 - u 0 0 * v 0 2. Proof. by rewrite mxE. Qed.
Lemma cr2 u v : cr u v 0 2 = u 0 0 * v 0 1 - u 0 1 * v 0 0. Proof. by rewrite mxE. Qed.
Definition crE := (cr0, cr1, cr2).
Ltac eq0 := apply/eqP; rewrite -subr_eq0; apply/eqP.
Ltac gen1 u := move: (u 0 0) (u 0 1) (u 0 2) => ? ? ?.
Lemma dot_crl u v : dot u (cr u v) = 0. Proof. by rewrite dot3 !crE; gen1 u; gen1 v; ringm Rg. Qed.
Lemma dot_crr u v : dot v (cr u v) = 0. Proof. by rewrite dot3 !crE; gen1 u; gen1 v; ringm Rg. Qed.
Lemma lagrange u v : q (cr u v) = q u * q v - dot u v ^+ 2.
Proof. by rewrite !dot3 !crE expr2; gen1 u; gen1 v; ringm Rg. Qed.
Lemma cr_cr x u v : cr x (cr u v) = dot x v *: u - dot x u *: v.
Proof. by apply: row3; rewrite !(crE, mxE) ?dot3 /=; gen1 u; gen1 v; gen1 x; eq0; ringm Rg. Qed.
Lemma crC u v : cr u v = - cr v u.
Proof. by apply: row3; rewrite !mxE /=; gen1 u; gen1 v; eq0; ringm Rg. Qed.
Lemma crZl k u v : cr (k *: u) v = k *: cr u v.
Proof. by apply: row3; rewrite !mxE /=; gen1 u; gen1 v; eq0; ringm Rg. Qed.
Lemma crZr k u v : cr u (k *: v) = k *: cr u v.
Proof. by apply: row3; rewrite !mxE /=; gen1 u; gen1 v; eq0; ringm Rg. Qed.
Lemma crDl u u' v : cr (u + u') v = cr u v + cr u' v.
Proof. by apply: row3; rewrite !mxE /=; gen1 u; gen1 v; gen1 u'; eq0; ringm Rg. Qed.
Lemma crNl u v : cr (- u) v = - cr u v. Proof. by rewrite -scaleN1r crZl scaleN1r. Qed.
Lemma crNr u v : cr u (- v) = - cr u v. Proof. by rewrite -scaleN1r crZr scaleN1r. Qed.
Lemma crxx u : cr u u = 0.
Proof. by apply: row3; rewrite !mxE /=; gen1 u; ringm Rg. Qed.
Lemma cr_eq0C u v : (cr u v == 0) = (cr v u == 0). Proof. by rewrite crC oppr_eq0. Qed.
Lemma cr_pm0 u u' v v' : pm u u' -> pm v v' -> cr u v = 0 -> cr u' v' = 0.
Proof. by case=> -> [] ->; rewrite ?crNl ?crNr ?opprK // => /eqP; rewrite oppr_eq0 => /eqP. Qed.

Lemma q_gt0 v : v != 0 -> 0 < q v. Proof. by move=> v0; rewrite lt_def dot_eq0 v0 dot_ge0. Qed.
Lemma parE x y : cr x y = 0 -> y != 0 -> x = (dot x y / q y) *: y.
Proof.
move=> e y0; have := cr_cr y x y; rewrite e [cr y 0]crC -[0](scale0r 0) crZl scale0r oppr0 => /esym/eqP.
rewrite subr_eq0 => /eqP h; have q0 : q y != 0 by rewrite dot_eq0.
by rewrite mulrC -scalerA (dotC x) -h scalerA mulVf // scale1r.
Qed.
Lemma par_pm x y : cr x y = 0 -> q x = q y -> pm x y.
Proof.
move=> e h; have : q (x - y) * q (x + y) = 0.
  have -> : q (x - y) * q (x + y) = (q x - q y) ^+ 2 + 4%:R * q (cr x y).
    by rewrite !dot3 !crE !mxE !expr2; gen1 x; gen1 y; ringm Rg.
  by rewrite h subrr expr0n e dot0l mulr0 addr0.
move/eqP; rewrite mulf_eq0 !dot_eq0 subr_eq0 addr_eq0 => /orP[]/eqP; by [left | right].
Qed.
Lemma perp_par u v x : dot x u = 0 -> dot x v = 0 -> cr x (cr u v) = 0.
Proof. by move=> xu xv; rewrite cr_cr xu xv !scale0r subrr. Qed.
Lemma par_trans x y z : y != 0 -> cr x y = 0 -> cr z y = 0 -> cr x z = 0.
Proof. by move=> y0 /parE/(_ y0) -> /parE/(_ y0) ->; rewrite crZl crZr crxx !scaler0. Qed.
Lemma perp_pm u v x y : cr u v != 0 -> dot x u = 0 -> dot x v = 0 -> dot y u = 0 -> dot y v = 0 -> q x = q y -> pm x y.
Proof. by move=> n0 xu xv yu yv; apply: par_pm; apply: (par_trans n0); exact: perp_par. Qed.
Lemma par_perp x y z : x != 0 -> cr x y = 0 -> dot x z = 0 -> dot y z = 0.
Proof. by move=> x0 e xz; rewrite (@parE y x) ?dotZl ?xz ?mulr0 // crC e oppr0. Qed.
Lemma perp_npar x y : x != 0 -> y != 0 -> dot x y = 0 -> cr x y != 0.
Proof. by move=> x0 y0 xy; rewrite -dot_eq0 lagrange xy expr0n subr0 mulf_neq0 // dot_eq0. Qed.
Lemma cr_act R u v u' v' : orthogonal R -> pm (act R u) u' -> pm (act R v) v' -> pm (act R (cr u v)) (cr u' v').
Proof.
move=> o hu hv; have [e|n0] := eqVneq (cr u' v') 0.
  have : q (cr u v) = q (cr u' v').
    rewrite !lagrange -(pmq hu) -(pmq hv) !dot_act // -(dot_act u v o); congr (_ - _).
    by case: hu hv => -> [] ->; rewrite ?(dotNl, dotNr) ?opprK ?sqrrN.
  by rewrite e dot0l => /eqP; rewrite dot_eq0 => /eqP ->; left; rewrite /act mul0mx.
apply: (perp_pm n0).
- by rewrite dotC; apply: pmdot (pmC hu) _; rewrite dot_act // dot_crl.
- by rewrite dotC; apply: pmdot (pmC hv) _; rewrite dot_act // dot_crr.
- by rewrite dotC dot_crl.
- by rewrite dotC dot_crr.
rewrite dot_act // !lagrange -(pmq hu) -(pmq hv) !dot_act // -(dot_act u v o); congr (_ - _).
by case: hu hv => -> [] ->; rewrite ?(dotNl, dotNr) ?opprK ?sqrrN.
Qed.
Lemma perp0 u v x : cr u v != 0 -> dot x u = 0 -> dot x v = 0 -> dot x (cr u v) = 0 -> x = 0.
Proof.
move=> n0 xu xv xn; have := parE (perp_par xu xv) n0; by rewrite xn mul0r scale0r.
Qed.
Lemma ext3 u v A A' : cr u v != 0 -> act A u = act A' u -> act A v = act A' v -> act A (cr u v) = act A' (cr u v) -> A = A'.
Proof.
move=> n0 eu ev en; apply/row_matrixP => i; apply/eqP; rewrite -subr_eq0; apply/eqP.
have Z t : act A t = act A' t -> dot (row i A - row i A') t = 0.
  move=> e; have := congr1 (fun x : 'rV_3 => x 0 i) e; rewrite !mxE => /eqP; rewrite -subr_eq0 => /eqP <-.
  by rewrite dotBl; congr (_ - _); apply: eq_bigr => j _; rewrite !mxE mulrC.
exact: (perp0 n0 (Z _ eu) (Z _ ev) (Z _ en)).
Qed.

(* ---- rotations ---- *)
Definition rot c s a : 'M[F]_3 := rotation3 c s (normalize a).
Lemma normalizeE a : a != 0 -> exists2 k, k != 0 & normalize a = k *: a /\ k * k = (q a)^-1.
Proof.
move=> a0; exists (Factories.norm a)^-1; first by rewrite invr_eq0 PropFactories.norm_eq0.
split=> //; rewrite PropFactories.normE -invfM -expr2 sqr_sqrtr //; exact: PropFactories.dot_ge0.
Qed.
Lemma unit_norm a : a != 0 -> PropFactories.unitvec (normalize a). Proof. exact: PropFactories.normalize_unit. Qed.
Lemma act_rot c s a v : a != 0 ->
  act (rot c s a) v = c *: v + ((1 - c) * dot v a / q a) *: a + s *: cr (normalize a) v.
Proof.
move=> a0; have [k k0 [ek kk]] := normalizeE a0.
rewrite /act /rot /rotation3 (PropFactories.cross_sq (unit_norm a0)).
have -> : (1%:M + s *: cross (normalize a) + (1 - c) *: ((normalize a)^T *m normalize a - 1%:M))^T =
    1%:M + s *: - cross (normalize a) + (1 - c) *: ((normalize a)^T *m normalize a - 1%:M).
  move: (normalize a) => u; have e : (u^T *m u)^T = u^T *m u by rewrite trmx_mul trmxK.
  by rewrite linearD /= linearD /= trmx1 linearZ /= PropFactories.crossT linearZ /= linearB /= trmx1 e.
move: (normalize a) ek => u ek; rewrite !mulmxDr mulmx1 -!scalemxAr mulmxBr mulmx1 mulmxA.
have -> : v *m u^T = (dot v u)%:M by exact: PropFactories.dotE.
rewrite mul_scalar_mx ek dotZr scalerA.
have -> : v *m - cross (k *: a) = cr (k *: a) v.
  apply: row3; rewrite !(mxE, PropFactories.sum3) /= ?mxE /=; gen1 a; gen1 v; eq0; ringm Rg.
rewrite scalerBr !scalerA -mulrA -kk.
apply: row3; rewrite !mxE /=; move: (dot v a) => ?; gen1 a; gen1 v; eq0; ringm Rg.
Qed.
Lemma rot_axis c s a : act (rot c s a) a = a.
Proof.
have [->|a0] := eqVneq a 0; first by rewrite /act mul0mx.
have [k k0 [ek kk]] := normalizeE a0.
rewrite act_rot // ek crZl crxx !scaler0 addr0 -mulrA mulfV ?dot_eq0 // mulr1 -scalerDl addrCA subrr addr0 scale1r //.
Qed.
Lemma rot_orth c s a : c ^+ 2 + s ^+ 2 = 1 -> orthogonal (rot c s a).
Proof.
move=> e; have [->|a0] := eqVneq a 0; last exact: PropFactories.rotation3_orth (unit_norm a0) e.
have -> : rot c s 0 = 1%:M; last by rewrite /orthogonal trmx1 mulmx1.
have z : cross (normalize (0 : 'rV[F]_3)) = 0.
  by apply/matrixP => i j; rewrite /normalize scaler0 !mxE oppr0; case: i j => [[|[|[|i]]] p] [[|[|[|j]]] p'].
by rewrite /rot /rotation3 z mulmx0 !scaler0 !addr0.
Qed.
Lemma rot_mul c s c' s' a : a != 0 -> rot c s a *m rot c' s' a = rot (c * c' - s * s') (s * c' + c * s') a.
Proof. by move=> a0; apply: PropFactories.rotation3_mul; exact: unit_norm. Qed.
Lemma rot10 a : rot 1 0 a = 1%:M. Proof. exact: PropFactories.rotation3_0. Qed.
Lemma rot_dot c s a v : c ^+ 2 + s ^+ 2 = 1 -> dot (act (rot c s a) v) a = dot v a.
Proof. by move=> e; rewrite -{2}(rot_axis c s a) dot_act //; exact: rot_orth. Qed.

(* half turns *)
Definition half a := rot (-1) 0 a.
Lemma half_orth a : orthogonal (half a). Proof. by apply: rot_orth; rewrite sqrrN expr1n expr0n addr0. Qed.
Lemma act_half a v : a != 0 -> act (half a) v = ((dot v a *+ 2) / q a) *: a - v.
Proof. by move=> a0; rewrite act_rot // scale0r addr0 scaleN1r addrC opprK -(natrD _ 1 1) mulr_natl. Qed.
Lemma half_axis a : act (half a) a = a. Proof. exact: rot_axis. Qed.
Lemma half_perp a v : a != 0 -> dot a v = 0 -> act (half a) v = - v.
Proof. by move=> a0 e; rewrite act_half // dotC e mul0rn mul0r scale0r add0r. Qed.
Lemma half_line a v : a != 0 -> pm (act (half a) v) v -> dot a v = 0 \/ cr a v = 0.
Proof.
move=> a0; rewrite act_half // => -[/eqP|/eqP].
  rewrite subr_eq -mulr2n => /eqP e; right.
  have : cr a (v *+ 2) = 0 by rewrite -e crZr crxx scaler0.
  by rewrite -scaler_nat crZr => /eqP; rewrite scaler_eq0 pnatr_eq0 => /eqP.
rewrite -subr_eq0 opprK subrK scaler_eq0 (negPf a0) orbF mulf_eq0 invr_eq0 dot_eq0 (negPf a0) orbF mulrn_eq0 /= => /eqP e.
by left; rewrite dotC.
Qed.
Lemma half_par a b : a != 0 -> b != 0 -> cr a b = 0 -> half a = half b.
Proof.
move=> a0 b0 e; have E v : act (half a) v = act (half b) v.
  rewrite !act_half // (parE e b0); set k := dot a b / q b.
  have k0 : k != 0.
    by apply: contraNneq a0 => k0; rewrite (parE e b0) -/k k0 scale0r.
  have q0 : q b != 0 by rewrite dot_eq0.
  congr (_ - _); rewrite scalerA dotZl !dotZr; congr (_ *: _).
  move: (k) k0 => {e}m m0; rewrite -mulrnAr !invfM; move: (dot v b *+ 2) ((q b)^-1) => t Q.
  rewrite [LHS](_ : _ = (m * m^-1) * (m * m^-1) * (t * Q)); first by rewrite mulfV // !mul1r.
  move: (m^-1) => l; ringm Rg.
apply: trmx_inj; apply/row_matrixP => j; have := E (delta_mx 0 j); by rewrite /act -!rowE.
Qed.

(* quarter turns *)
Definition quart a := rot 0 1 a.
Lemma quart_orth a : orthogonal (quart a). Proof. by apply: rot_orth; rewrite expr1n expr0n add0r. Qed.
Lemma quart_sq a : a != 0 -> quart a *m quart a = half a.
Proof. by move=> a0; rewrite rot_mul // !mulr0 !mulr1 sub0r addr0. Qed.
Lemma half_sq a : a != 0 -> half a *m half a = 1%:M.
Proof. by move=> a0; rewrite rot_mul // mulrNN !mulr0 mul0r mulr1 subr0 addr0 rot10. Qed.
Lemma quart_axis a : act (quart a) a = a. Proof. exact: rot_axis. Qed.
Lemma quart_perp a v w : a != 0 -> v != 0 -> dot a v = 0 -> dot a w = 0 -> dot v w = 0 -> q v = q w -> pm (act (quart a) v) w.
Proof.
move=> a0 v0 av aw vw e; apply: (perp_pm (perp_npar a0 v0 av)).
- by rewrite rot_dot ?(dotC v) // expr1n expr0n add0r.
- by rewrite act_rot // scale0r add0r (dotC v) av mulr0 mul0r scale0r add0r scale1r dotC dot_crr.
- by rewrite dotC.
- by rewrite dotC.
- by rewrite dot_act //; exact: quart_orth.
Qed.

(* a third and a sixth *)
Section Third.
Variable s : F.
Hypothesis es : s ^+ 2 = 3%:R / 4%:R.
Lemma halves : (2^-1 : F) + 2^-1 = 1. Proof. by rewrite -mulr2n -mulr_natr mulVf ?pnatr_eq0. Qed.
Lemma es' : s * s = 3%:R * (2^-1 * 2^-1). Proof. by rewrite -expr2 es -invfM -natrM. Qed.
Lemma quarters : 4%:R * ((2^-1 : F) * 2^-1) = 1.
Proof. by rewrite -invfM -natrM mulfV ?pnatr_eq0. Qed.
Definition third a := rot (- 2^-1) s a.
Definition sixth a := rot 2^-1 s a.
Lemma sixth_orth a : orthogonal (sixth a).
Proof.
apply: rot_orth; rewrite expr2 expr2 es' -[RHS]quarters; move: (2^-1) => h; ringm Rg.
Qed.
Lemma third_orth a : orthogonal (third a).
Proof.
apply: rot_orth; rewrite expr2 expr2 es' -[RHS]quarters; move: (2^-1) => h; ringm Rg.
Qed.
Lemma sixth_sq a : a != 0 -> sixth a *m sixth a = third a.
Proof.
move=> a0; rewrite rot_mul // es'; congr (rot _ _ a); last by rewrite (mulrC s) -mulrDl halves mul1r.
have := halves; move: (2^-1) => h e; rewrite -[RHS]mulr1 -[in RHS]e; ringm Rg.
Qed.
Lemma third_sq a : a != 0 -> third a *m third a = rot (- 2^-1) (- s) a.
Proof.
move=> a0; rewrite rot_mul // es'; congr (rot _ _ a); last by rewrite mulrN mulNr (mulrC s) -opprD -mulrDl halves mul1r.
have := halves; move: (2^-1) => h e; rewrite -[RHS]mulr1 -[in RHS]e; ringm Rg.
Qed.
Lemma third_cube a : a != 0 -> third a *m (third a *m third a) = 1%:M.
Proof.
move=> a0; rewrite third_sq // rot_mul // -[RHS](rot10 a); congr (rot _ _ a); last by rewrite mulrNN mulrN mulrC addNr.
rewrite (mulrN s) opprK es'.
by rewrite -[RHS]quarters; move: (2^-1) => h; ringm Rg.
Qed.
Lemma sixth_cube a : a != 0 -> sixth a *m (sixth a *m sixth a) = half a.
Proof.
move=> a0; rewrite sixth_sq // rot_mul // mulrN es' mulrN (mulrC s) addNr; congr (rot _ _ a).
by rewrite -[X in _ = - X]quarters; move: (2^-1) => h; ringm Rg.
Qed.
Lemma third_sum a v : a != 0 -> v + act (third a) v + act (third a) (act (third a) v) = (3%:R * (dot v a / q a)) *: a.
Proof.
move=> a0; rewrite -act_mul third_sq // !act_rot // -!mulrA; move: (dot v a / q a) (cr _ v) => t x.
have := halves; move: (2^-1) => h e; apply/eqP; rewrite -subr_eq0; apply/eqP.
transitivity ((1 - (h + h)) *: v + ((h + h - 1) * t) *: a); last by rewrite e !subrr mul0r !scale0r addr0.
by apply: row3; rewrite !mxE; gen1 a; gen1 v; gen1 x; ringm Rg.
Qed.
Lemma third_line a v : a != 0 -> pm (act (third a) v) v -> cr a v = 0.
Proof.
move=> a0 h; have e : act (third a) v = v.
  case: h => // e; have := congr1 (fun A => act A v) (third_cube a0).
  rewrite act1 !act_mul e !actN !e !actN e !opprK => /eqP; rewrite eq_sym -subr_eq0 opprK -mulr2n -scaler_nat scaler_eq0 pnatr_eq0 /= => /eqP ->.
  by rewrite oppr0.
have := third_sum v a0; rewrite !e => h3.
have : cr a (v + v + v) = 0 by rewrite h3 crZr crxx scaler0.
have -> : v + v + v = 3%:R *: v by rewrite scaler_nat mulrS mulr2n addrA.
by rewrite crZr => /eqP; rewrite scaler_eq0 pnatr_eq0 => /eqP.
Qed.
End Third.

(* ---- a set of matrices closed under products ---- *)
Variable Pr : 'M[F]_3 -> Prop.
Hypothesis PrM : forall A A', Pr A -> Pr A' -> Pr (A *m A').
Hypothesis PrN : Pr (- 1%:M).
Lemma Pr_1 : Pr 1%:M. Proof. by have := PrM PrN PrN; rewrite mulmxN mulmx1 opprK. Qed.
Lemma Pr_opp A : Pr A -> Pr (- A). Proof. by move/(PrM PrN); rewrite mulNmx mul1mx. Qed.
Lemma Pr_oppE A : Pr (- A) -> Pr A. Proof. by move/Pr_opp; rewrite opprK. Qed.

Lemma in_diag3 a b R : a != 0 -> b != 0 -> dot a b = 0 -> orthogonal R -> Pr (half a) -> Pr (half b) ->
  pm (act R a) a -> pm (act R b) b -> Pr R.
Proof.
move=> a0 b0 ab o pa pb ra rb; have n0 := perp_npar a0 b0 ab; have rc := cr_act o ra rb.
have ba : dot b a = 0 by rewrite dotC.
have E A : act R a = act A a -> act R b = act A b -> act R (cr a b) = act A (cr a b) -> R = A by apply: ext3.
have [ha1 ha2 ha3] : [/\ act (half a) a = a, act (half a) b = - b & act (half a) (cr a b) = - cr a b].
  by rewrite half_axis !half_perp // dot_crl.
have [hb1 hb2 hb3] : [/\ act (half b) a = - a, act (half b) b = b & act (half b) (cr a b) = - cr a b].
  by rewrite half_axis !half_perp // dot_crr.
case: ra rb rc => ea [] eb [] ec.
- by rewrite (E 1%:M) ?act1 //; exact: Pr_1.
- rewrite (E (- (half a *m half b))); first by apply: Pr_opp; apply: PrM.
  + by rewrite actNM act_mul hb1 actN ha1 opprK.
  + by rewrite actNM act_mul hb2 ha2 opprK.
  + by rewrite actNM act_mul hb3 actN ha3 opprK.
- by rewrite (E (- half b)) ?actNM ?hb1 ?hb2 ?hb3 ?opprK //; exact: Pr_opp.
- by rewrite (E (half a)) ?ha1 ?ha2 ?ha3.
- by rewrite (E (- half a)) ?actNM ?ha1 ?ha2 ?ha3 ?opprK //; exact: Pr_opp.
- by rewrite (E (half b)) ?hb1 ?hb2 ?hb3.
- rewrite (E (half a *m half b)); first exact: PrM.
  + by rewrite act_mul hb1 actN ha1.
  + by rewrite act_mul hb2 ha2.
  + by rewrite act_mul hb3 actN ha3 opprK.
- by rewrite (E (- 1%:M)) ?actNM ?act1.
Qed.
Lemma quart_back a A : a != 0 -> Pr (quart a) -> Pr (quart a *m A) -> Pr A.
Proof.
move=> a0 p pA; have -> : A = quart a *m (quart a *m (quart a *m (quart a *m A))); last by do 3![apply: PrM => //].
by rewrite !mulmxA quart_sq // -(mulmxA (half a)) quart_sq // half_sq // mul1mx.
Qed.
Lemma quart_half a : a != 0 -> Pr (quart a) -> Pr (half a).
Proof. by move=> a0 p; rewrite -quart_sq //; apply: PrM. Qed.
Lemma third_back s a A : s ^+ 2 = 3%:R / 4%:R -> a != 0 -> Pr (third s a) -> Pr (third s a *m A) -> Pr A.
Proof.
move=> es a0 p pA; have -> : A = third s a *m (third s a *m (third s a *m A)); last by do 2![apply: PrM => //].
by rewrite !mulmxA -(mulmxA (third s a)) third_cube // mul1mx.
Qed.
End Space.
