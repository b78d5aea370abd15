(* C69, C70, C71: names of group elements *)
From mathcomp Require Import all_ssreflect all_algebra.
From mathcomp Require Import complex.
From Verif Require Import Prelude RingTac LMatrices PGE Spin Factories PropFactories PropHexagonal Printing.
Set Implicit Arguments.
Unset Strict Implicit.
Unset Printing Implicit Defensive.
Import Order.TTheory GRing.Theory Num.Theory.
Local Open Scope ring_scope.

Section Adj.
Variable F : rcfType.
Let R := [comRingType of F].
Add Ring Rr : (R_ring R).

Lemma det2 (M : 'M[F]_2) : \det M = M 0 0 * M 1 1 - M 0 1 * M 1 0.
Proof.
rewrite (expand_det_row _ 0) !big_ord_recl big_ord0 /= /cofactor !det_mx11 !mxE /= ?add0n ?addn0 expr0 expr1 mul1r addr0.
rewrite mulN1r mulrN; congr (_ * _ - _ * _); congr (M _ _); exact: val_inj.
Qed.

Lemma mx_nat n (M : 'M[F]_n.+1) : exists a : nat -> nat -> F, M = \matrix_(i, j) a i j.
Proof. by exists (fun i j => M (inord i) (inord j)); apply/matrixP => i j; rewrite !mxE !inord_val. Qed.

(* the adjugate of a three-dimensional matrix *)
Lemma adj3 (M : 'M[F]_3) : \adj M = M *m M - \tr M *: M + (\tr (\adj M))%:M.
Proof.
have [a ->] := mx_nat M.
apply/mat3P; rewrite !mxE /cofactor /mxtrace !(mxE, sum3) /cofactor !det2 !(mxE, sum3) /= ?(addn0, add0n, expr0, expr1, mulr0n, mulr1n, addr0);
  rewrite ?(exprS, expr0, mulr1, mulrNN, mul1r, mulN1r); split;
  rewrite -?[(1 %% 3)%N]/1%N -?[(1 + 1)%N]/2%N -?[(2 %% 3)%N]/2%N -?[(1 %% 2)%N]/1%N /bump /= ?addn0 ?add0n -?[(1 + 1)%N]/2%N
    ?(exprS, expr0, mulr1, mulrNN, mul1r, mulN1r); ringm R.
Qed.

Definition so3 (M : 'M[F]_3) := M^T *m M = 1%:M /\ \det M = 1.
Lemma so3_square M : so3 M -> M *m M = \tr M *: M - (\tr M)%:M + M^T.
Proof.
case=> o d; have ea : \adj M = M^T by rewrite -[LHS]mul1mx -o -mulmxA mul_mx_adj d mulmx1.
have := adj3 M; rewrite ea mxtrace_tr => ->.
by rewrite [RHS]addrC addrA (addrAC (_ - _)) subrK addrK.
Qed.

(* the antisymmetric part is cross of half of axis_of *)
Lemma axis_ofE (M : 'M[F]_3) : axis_of M = vec3 (M 2 1 - M 1 2) (M 0 2 - M 2 0) (M 1 0 - M 0 1).
Proof.
apply/rowP => i; rewrite !mxE /mxtrace sum3 !mxE !sum3 !mxE.
by case: i => [[|[|[|//]]] ?] /=; rewrite ?(mulr0, mul0r, addr0, add0r, mul1r, mulN1r) ?opprD ?opprK // addrC.
Qed.
Lemma anti_part (M : 'M[F]_3) : M - M^T = cross (axis_of M).
Proof.
rewrite axis_ofE; apply: mat3P; rewrite !mxE /= ?subrr ?opprB; split=> //.
Qed.
End Adj.

Section Angle.
Variable F : rcfType.
Let R := [comRingType of F].
Add Ring Rr2 : (R_ring R).
Variables (atan2 : F -> F -> F) (cs sn : F -> F) (eigh : forall d, 'M[F]_d -> seq (F * 'rV[F]_d)).

(* np.arctan2: the angle of the point (x, y) *)
Definition atan2_ok := forall y x, x ^+ 2 + y ^+ 2 != 0 ->
  cs (atan2 y x) = x / Num.sqrt (x ^+ 2 + y ^+ 2) /\ sn (atan2 y x) = y / Num.sqrt (x ^+ 2 + y ^+ 2).
(* la.eigh: the eigenvalues, in ascending order, and normalised eigenvectors; only the lower triangle is used *)
Definition lower d (S : 'M[F]_d) : 'M[F]_d := \matrix_(i, j) (if (j <= i)%N then S i j else S j i).
Definition eigh_ok := forall d (S : 'M[F]_d),
  [/\ size (eigh S) = d,
      forall x v, List.In (x, v) (eigh S) -> v *m lower S = x *: v /\ unitvec v,
      sorted <=%R (map fst (eigh S)) &
      forall x (v : 'rV[F]_d), v != 0 -> v *m lower S = x *: v -> x \in map fst (eigh S)].
Hypothesis at2 : atan2_ok.
Hypothesis eig : eigh_ok.

Lemma lower_sym d (S : 'M[F]_d) : S^T = S -> lower S = S.
Proof. by move=> e; apply/matrixP => i j; rewrite mxE; case: ifP => // _; rewrite -{1}e mxE. Qed.

Lemma crossZ (a : F) (u : 'rV[F]_3) : cross (a *: u) = a *: cross u.
Proof. by apply: mat3P; rewrite !mxE /= ?mulr0 ?mulrN. Qed.
Lemma cross0 : cross (0 : 'rV[F]_3) = 0.
Proof. by apply: mat3P; rewrite !mxE /= ?oppr0. Qed.

Lemma so3_cross (M : 'M[F]_3) : so3 M ->
  cross (axis_of M) *m cross (axis_of M) = (\tr M + 1) *: (M + M^T - 2%:R%:M).
Proof.
move=> so; have [o _] := so; have o' : M *m M^T = 1%:M by apply: mulmx1C.
rewrite -anti_part mulmxBl !mulmxBr o o' so3_square // -trmx_mul so3_square //.
move: (\tr M) => t; apply/matrixP => i j; rewrite !mxE [j == i]eq_sym.
by case: (i == j); rewrite ?mulr1n ?mulr0n -?[2%:R]/(1 + 1); move: (M i j) (M j i) => x y; ringm R.
Qed.

Lemma norm_sq d (u : 'rV[F]_d) : norm u ^+ 2 = dot u u.
Proof. by rewrite normE sqr_sqrtr // dot_ge0. Qed.

Lemma sg_sq (x : F) : x != 0 -> Num.sg x * Num.sg x = 1.
Proof. by move=> x0; rewrite -expr2 sqr_sg x0. Qed.

Lemma tr_outer (u : 'rV[F]_3) : \tr (u^T *m u) = dot u u.
Proof. by rewrite mxtrace_mulC dotE mxtrace_scalar. Qed.

(* the angle of the point (2 c, 2 s) on the circle *)
Lemma atan2_circle (c s : F) : c ^+ 2 + s ^+ 2 = 1 ->
  cs (atan2 (2%:R * s) (2%:R * c)) = c /\ sn (atan2 (2%:R * s) (2%:R * c)) = s.
Proof.
move=> e; have n2 : 2%:R != 0 :> F by rewrite pnatr_eq0.
have e4 : (2%:R * c) ^+ 2 + (2%:R * s) ^+ 2 = 2%:R ^+ 2 by rewrite !exprMn -mulrDr e mulr1.
have [|-> ->] := @at2 (2%:R * s) (2%:R * c); first by rewrite e4 expf_neq0.
by rewrite e4 sqrtr_sqr ger0_norm ?ler0n // ![2%:R * _]mulrC !mulfK.
Qed.

(* ---- C69: the axis and angle describe the rotation, if the components of the axis do not add up to zero ---- *)
Theorem C69_recovered (M : 'M[F]_3) : so3 M -> vsum (axis_of M) != 0 ->
  exists u, exists2 t, rotation_to_angle atan2 eigh M = Ok (Some u, t) & unitvec u /\ M = rotation3 (cs t) (sn t) u.
Proof.
move=> so s0; rewrite /rotation_to_angle; set n := axis_of M; set a := norm n * _.
have n0 : n != 0 by apply: contraNneq s0; rewrite -/n => ->; rewrite /vsum big1 // => i _; rewrite mxE.
have a0 : a != 0 by rewrite /a mulf_neq0 ?norm_eq0 // sgr_eq0.
rewrite (negbTE a0); exists (a^-1 *: n); eexists; first by [].
have aa : a * a = dot n n by rewrite /a mulrACA sg_sq // mulr1 -expr2 norm_sq.
have u1 : unitvec (a^-1 *: n) by rewrite /unitvec dotZ -aa -invfM mulVf // mulf_neq0.
split=> //; set u := a^-1 *: n in u1 *.
have en : n = a *: u by rewrite /u scalerA mulfV // scale1r.
have ad : M - M^T = a *: cross u by rewrite anti_part -/n en crossZ.
have sq := so3_cross so; rewrite -/n en crossZ -scalemxAl -scalemxAr scalerA cross_sq // in sq.
set t := \tr M in sq *.
have two : 2%:R != 0 :> F by rewrite pnatr_eq0.
have tra : a * a = (t + 1) * (3%:R - t).
  have := congr1 mxtrace sq; rewrite !mxtraceZ !raddfB /= tr_outer u1 mxtrace1 mxtraceD mxtrace_tr mxtrace_scalar -/t => e; apply: (mulfI two).
  have e2 : a * a * (1 - 3%:R) = - (2%:R * (a * a)) :> F by ringm R.
  rewrite -[LHS]opprK -e2 e -mulr_natr; ringm R.
have t1 : t + 1 != 0 by apply: contraNneq a0 => t1; rewrite t1 mul0r in tra; move/eqP: tra; rewrite mulf_eq0 orbb.
have sy : M + M^T - 2%:R%:M = (3%:R - t) *: (u^T *m u - 1%:M).
  by apply: (scalerI t1); rewrite -sq tra scalerA.
have ec : t - 1 = 2%:R * ((t - 1) / 2%:R) by rewrite mulrCA mulfV ?mulr1.
have es : a = 2%:R * (a / 2%:R) by rewrite mulrCA mulfV ?mulr1.
have cs1 : ((t - 1) / 2%:R) ^+ 2 + (a / 2%:R) ^+ 2 = 1.
  have a2 : a ^+ 2 = (t + 1) * (3%:R - t) by rewrite expr2.
  rewrite !expr_div_n a2 -mulrDl; apply: (mulIf (expf_neq0 2 two)); rewrite divfK ?expf_neq0 //.
  ringm R.
have [c1 s1] := atan2_circle cs1; rewrite -ec -es in c1 s1; rewrite c1 s1.
apply: (scalerI two); rewrite /rotation3 cross_sq // !scalerDr !scalerA mulrCA mulfV // mulr1 -ad.
have -> : 2%:R * (1 - (t - 1) / 2%:R) = 3%:R - t.
  by rewrite mulrBr mulr1 -ec; ringm R.
rewrite -scalerDr -sy; move: (M^T) => N; apply/matrixP => i j; rewrite !mxE.
by case: (i == j); rewrite ?mulr1n ?mulr0n -?[2%:R]/(1 + 1); move: (M i j) (N i j) => x y; ringm R.
Qed.

Lemma sym_axis (M : 'M[F]_3) : M^T = M -> axis_of M = 0.
Proof.
move=> sy; have h i j : M i j = M j i by rewrite -{1}sy mxE.
by rewrite axis_ofE (h 2 1) (h 0 2) (h 1 0) !subrr; apply/rowP => i; rewrite !mxE; case: i => [[|[|[|//]]] ?].
Qed.

(* ---- rotations by pi, and the identity: axis_of vanishes ---- *)
Lemma so3_sym (M : 'M[F]_3) : so3 M -> axis_of M = 0 -> M^T = M.
Proof. by move=> so n0; apply/eqP; rewrite eq_sym -subr_eq0 anti_part n0 cross0. Qed.

Lemma so3_sym_cases (M : 'M[F]_3) : so3 M -> M^T = M -> M = 1%:M \/ \tr M = -1.
Proof.
move=> so sy; have e := so3_square so; have o := so.1; rewrite sy in e o; rewrite o in e.
case: (eqVneq (\tr M) (-1)) => [->|t1]; [by right|left].
have t0 : \tr M + 1 != 0 by rewrite addr_eq0.
apply: (scalerI t0); rewrite !scalerDl !scale1r scalemx1.
by rewrite [in RHS]addrC [in RHS]e addrAC subrK.
Qed.

Lemma sumsq0 (Q : 'M[F]_3) : Q^T *m Q = Q -> \tr Q = 0 -> Q = 0.
Proof.
move=> qq tq; have h : forall i, \sum_k Q k i ^+ 2 = 0.
  have H0 i : (Q^T *m Q) i i = \sum_k Q k i ^+ 2 by rewrite mxE; apply: eq_bigr => k _; rewrite mxE expr2.
  have p i : 0 <= (Q^T *m Q) i i by rewrite H0; apply: sumr_ge0 => k _; apply: sqr_ge0.
  have z : \sum_i (Q^T *m Q) i i = 0 by rewrite -/(\tr (Q^T *m Q)) qq.
  by move=> i; rewrite -H0; apply: (psumr_eq0P (fun j _ => p j) z).
apply/matrixP => i j; rewrite mxE; have := psumr_eq0P (fun k _ => sqr_ge0 (Q k j)) (h j) (i := i) isT.
by move/eqP; rewrite sqrf_eq0 => /eqP.
Qed.

Lemma twofold (M : 'M[F]_3) (v : 'rV[F]_3) : so3 M -> M^T = M -> \tr M = -1 -> unitvec v -> v *m M = v ->
  M = 2%:R *: (v^T *m v) - 1%:M.
Proof.
move=> so sy t1 uv ev; have o := so.1; rewrite sy in o.
have two : 2%:R != 0 :> F by rewrite pnatr_eq0.
have h2 : (2%:R : F)^-1 + 2%:R^-1 = 1 by rewrite -[RHS](mulVf two) -[X in _ = _ * X]/(1 + 1) mulrDr mulr1.
pose P := 2%:R^-1 *: (M + 1%:M); pose Q := P - v^T *m v.
have evT : M *m v^T = v^T by rewrite -{1}sy -trmx_mul ev.
have PT : P^T = P by rewrite /P linearZ /= linearD /= sy trmx1.
have PP : P *m P = P.
  rewrite /P -scalemxAl -scalemxAr scalerA mulmxDl !mulmxDr mul1mx !mulmx1 o [1%:M + M]addrC -scalerA; congr (_ *: _).
  by rewrite scalerDr -scalerDl h2 scale1r.
have Pv : P *m v^T = v^T by rewrite /P -scalemxAl mulmxDl mul1mx evT -mulr2n -scaler_nat scalerA mulVf // scale1r.
have vP : v *m P = v by rewrite -[LHS]trmxK trmx_mul PT Pv trmxK.
have Q0 : Q = 0.
  apply: sumsq0.
    rewrite /Q [(P - _)^T]linearB /= PT trmx_mul trmxK mulmxBl !mulmxBr PP (mulmxA P) Pv -(mulmxA _ v P) vP outer_sq //.
    by rewrite subrr subr0.
  rewrite /Q raddfB /= tr_outer uv /P mxtraceZ mxtraceD t1 mxtrace1.
  have -> : -1 + 3%:R = 2%:R :> F by ringm R.
  by rewrite mulVf ?subrr.
have : P = v^T *m v by apply/eqP; rewrite -subr_eq0 -/Q Q0.
by move=> <-; rewrite /P scalerA mulfV // scale1r addrK.
Qed.

Lemma last_In (l : seq (F * 'rV[F]_3)) : l != [::] -> List.In (last (0, 0) l) l.
Proof.
case: l => // x l _; rewrite /= ; elim: l x => [|y l IH] x /=; first by left.
by right; apply: IH.
Qed.

(* the last eigenvalue is the largest *)
Lemma last_max (l : seq F) x : sorted <=%R l -> x \in l -> x <= last 0 l.
Proof.
case: l => // y l /=; elim: l y x => [|z l IH] y x /=; first by rewrite inE => _ /eqP ->.
case/andP => yz sz; rewrite inE => /orP[/eqP ->|]; last exact: IH.
by apply: (le_trans yz); apply: IH => //; rewrite inE eqxx.
Qed.

Lemma eigh_last (M : 'M[F]_3) : so3 M -> M^T = M ->
  exists2 v, last (0, 0) (eigh M) = (1, v) & unitvec v /\ v *m M = v.
Proof.
move=> so sy; have [sz ok so_ all] := eig M; rewrite lower_sym // in ok all.
have ne : eigh M != [::] by case: (eigh M) sz.
have o := so.1; rewrite sy in o.
case el : (last (0, 0) (eigh M)) => [x v]; have := last_In ne; rewrite el => /ok [ev uv].
have v0 : v != 0 by apply/negP => /eqP v0; move: uv; rewrite /unitvec v0 /dot big1 => [/esym/eqP|i _]; rewrite ?oner_eq0 // mxE mul0r.
suff x1 : x = 1 by exists v; rewrite -?x1 //; split=> //; rewrite ev x1 scale1r.
have xx : x * x = 1.
  have : v *m M *m M = v by rewrite -mulmxA o mulmx1.
  rewrite ev -scalemxAl ev scalerA => /eqP; rewrite -subr_eq0 -{2}[v]scale1r -scalerBl scaler_eq0 (negbTE v0) orbF subr_eq0.
  by move/eqP.
have l1 : x <= 1.
  by rewrite leNgt; apply/negP => h; have := ltr_pmul ler01 ler01 h h; rewrite xx mulr1 ltxx.
apply/eqP; rewrite eq_le l1 /=.
have [w w0 ew] : exists2 w : 'rV[F]_3, w != 0 & w *m M = 1 *: w.
  have : M + 1%:M != 0.
    apply/negP => /eqP e; have := congr1 mxtrace e; rewrite mxtraceD mxtrace1 mxtrace0.
    case: (so3_sym_cases so sy) => [->|->].
      by rewrite mxtrace1 -natrD => /eqP; rewrite pnatr_eq0.
    have -> : -1 + 3%:R = 2%:R :> F by ringm R.
    by move/eqP; rewrite pnatr_eq0.
  case/matrix0Pn => i [j nz]; exists (row i (M + 1%:M)).
    by apply/negP => /eqP/rowP/(_ j); rewrite mxE => e; rewrite e mxE eqxx in nz.
  by rewrite scale1r -row_mul mulmxDl o mul1mx addrC.
have -> : x = last 0 (map fst (eigh M)) by rewrite (last_map fst (eigh M) (0, 0)) el.
by apply: last_max => //; apply: all ew.
Qed.

Theorem C69_symmetric (M : 'M[F]_3) : so3 M -> axis_of M = 0 ->
  exists u, exists2 t, rotation_to_angle atan2 eigh M = Ok (u, t) &
    (forall w, u = Some w -> unitvec w /\ M = rotation3 (cs t) (sn t) w) /\
    (u = None -> exists2 v, unitvec v & v *m M = v /\ vsum v = 0).
Proof.
move=> so n0; have sy := so3_sym so n0.
rewrite /rotation_to_angle n0.
have -> : norm (0 : 'rV[F]_3) = 0 by apply/eqP; rewrite norm_eq0.
rewrite mul0r eqxx; have [v -> [uv ev]] := eigh_last so sy; rewrite eqxx /=.
eexists; eexists; first by [].
rewrite sgr_eq0; case: (eqVneq (vsum v) 0) => sv; split=> //; first by move=> _; exists v.
move=> w [<-]; set e := (Num.sg _)^-1.
have ee : e * e = 1 by rewrite /e -invfM sg_sq // invr1.
have uw : unitvec (e *: v) by rewrite /unitvec dotZ uv ee mulr1.
split=> //; rewrite /rotation3 cross_sq //.
have -> : (e *: v)^T *m (e *: v) = v^T *m v by rewrite [(_ *: _)^T]linearZ /= -scalemxAl -scalemxAr scalerA ee scale1r.
case: (so3_sym_cases so sy) => [M1|t1].
  have [c1 s1] := @atan2_circle 1 0 (etrans (congr1 _ (expr0n _ _)) (etrans (addr0 _) (expr1n _ _))).
  rewrite M1 mxtrace1 (_ : 3%:R - 1 = 2%:R * 1) ?mulr1 ?mulr0 in c1 s1 *; last by rewrite (natrD _ 2 1) addrK.
  by rewrite c1 s1 subrr !scale0r !addr0.
have [c1 s1] := @atan2_circle (-1) 0 (etrans (congr1 _ (expr0n _ _)) (etrans (addr0 _) (etrans (sqrrN _) (expr1n _ _)))).
rewrite t1 (_ : -1 - 1 = 2%:R * -1) ?mulr0 in c1 s1 *; last by rewrite mulrN1 -opprD.
rewrite c1 s1 scale0r addr0 opprK -[1 + 1]/(2%:R) (twofold so sy t1 uv ev) scalerBr.
by rewrite addrCA; congr (_ + _); rewrite -[2%:R]/(1 + 1) scalerDl scale1r opprD addrA subrr add0r.
Qed.

(* ---- C69: findings ---- *)
(* An axis whose components add up to zero: sign(0) = 0 makes absn vanish, and the rotation is taken for one by pi (or none).
   Whatever is returned describes a different rotation. *)
Theorem C69_zero_sum_refuted (M : 'M[F]_3) u t : so3 M -> axis_of M != 0 -> vsum (axis_of M) = 0 -> \tr M != 1 ->
  rotation_to_angle atan2 eigh M = Ok (u, t) -> forall w, M <> rotation3 (cs t) (sn t) w.
Proof.
move=> so n0 s0 t1; rewrite /rotation_to_angle s0 sgr0 mulr0 eqxx.
case: (last _ _) => x v; case: ifP => // _ [_ <-] w e.
case/eqP: n0; have : M^T = M.
  have [|_ s1] := @at2 0 (\tr M - 1); first by rewrite expr0n addr0 expf_neq0 // subr_eq0.
  by rewrite e s1 mul0r rotation3_tr oppr0.
by move/sym_axis.
Qed.

(* ... and a rotation by pi about such an axis has an axis that is not a number *)
Theorem C69_twofold_refuted (v : 'rV[F]_3) t u : unitvec v -> vsum v = 0 ->
  rotation_to_angle atan2 eigh (2%:R *: (v^T *m v) - 1%:M) = Ok (u, t) -> u = None.
Proof.
move=> uv s0; set M := _ - _.
have sy : M^T = M by rewrite /M [LHS]linearB /= linearZ /= trmx1 trmx_mul trmxK.
have two : 2%:R != 0 :> F by rewrite pnatr_eq0.
have n0 := sym_axis sy.
have M2 : M *m M = 1%:M.
  have -> : M = - reflection v by rewrite /M /reflection opprB.
  by rewrite mulNmx mulmxN opprK reflectionK.
have o : M^T *m M = 1%:M by rewrite sy.
have d1 : \det M = 1.
  have -> : M = - reflection v by rewrite /M /reflection opprB.
  by rewrite -scaleN1r detZ reflection_det // -signr_odd /= expr1 mulrNN mulr1.
rewrite /rotation_to_angle n0.
have -> : norm (0 : 'rV[F]_3) = 0 by apply/eqP; rewrite norm_eq0.
rewrite mul0r eqxx; have [w -> [uw ew]] := eigh_last (conj o d1) sy; rewrite eqxx /= => -[<- _].
have -> : vsum w = 0; last by rewrite sgr0 eqxx.
(* w is a multiple of v *)
have ew2 : 2%:R *: w = 2%:R *: ((dot w v) *: v).
  have := ew; rewrite /M mulmxBr mulmx1 -scalemxAr mulmxA dotE mul_scalar_mx => e.
  by rewrite -[2%:R]/(1 + 1) !scalerDl !scale1r -{2}e -[_ *: v + _ *: v]mulr2n -scaler_nat addrC subrK.
rewrite (scalerI two ew2) /vsum.
rewrite (eq_bigr (fun i => dot w v * v 0 i)) => [|i _]; last by rewrite mxE.
by rewrite -mulr_sumr -/(vsum v) s0 mulr0.
Qed.

(* such rotations exist: every angle with s != 0, about every axis with vanishing sum *)
Lemma det3 (M : 'M[F]_3) : \det M = M 0 0 * (M 1 1 * M 2 2 - M 1 2 * M 2 1) - M 0 1 * (M 1 0 * M 2 2 - M 1 2 * M 2 0)
  + M 0 2 * (M 1 0 * M 2 1 - M 1 1 * M 2 0).
Proof.
have [a ->] := mx_nat M.
rewrite (expand_det_row _ 0) sum3 /cofactor !det2 !mxE /= ?add0n ?addn0 -?[(1 %% 3)%N]/1%N -?[(2 %% 3)%N]/2%N -?[(1 %% 2)%N]/1%N /bump /= ?addn0 ?add0n
  -?[(1 + 1)%N]/2%N ?(exprS, expr0, mulr1, mulrNN, mul1r, mulN1r); ringm R.
Qed.
Lemma rotation3_det (c s : F) (u : 'rV[F]_3) : unitvec u -> c ^+ 2 + s ^+ 2 = 1 -> \det (rotation3 c s u) = 1.
Proof.
rewrite /unitvec dot3 => q cs1.
transitivity ((1 - (1 - c) * (u 0 0 * u 0 0 + u 0 1 * u 0 1 + u 0 2 * u 0 2)) ^+ 2 + s ^+ 2 * (u 0 0 * u 0 0 + u 0 1 * u 0 1 + u 0 2 * u 0 2)); last first.
  by rewrite q !mulr1 opprB addrCA subrr addr0.
rewrite /rotation3 det3 !(mxE, sum3) /=; move: (u 0 0) (u 0 1) (u 0 2) => x y z; ringm R.
Qed.
Lemma rotation3_so3 (c s : F) (u : 'rV[F]_3) : unitvec u -> c ^+ 2 + s ^+ 2 = 1 -> so3 (rotation3 c s u).
Proof. by move=> uu e; split; [apply: mulmx1C; apply: rotation3_orth|apply: rotation3_det]. Qed.
Lemma axis_rotation3 (c s : F) (u : 'rV[F]_3) : axis_of (rotation3 c s u) = (2%:R * s) *: u.
Proof.
have [a eu] : exists a : nat -> F, u = \row_i a i.
  by exists (fun i => u 0 (inord i)); apply/rowP => i; rewrite mxE inord_val.
rewrite axis_ofE /rotation3 eu; apply/rowP => i; rewrite !(mxE, sum3).
case: i => [[|[|[|//]]] ?] /=; rewrite -?[(1 %% 3)%N]/1%N -?[(1 + 1)%N]/2%N -?[(2 %% 3)%N]/2%N /= ?mulr0n ?mulr1n; ringm R.
Qed.
Lemma trace_rotation3 (c s : F) (u : 'rV[F]_3) : unitvec u -> \tr (rotation3 c s u) = 1 + 2%:R * c.
Proof.
move=> uu; rewrite /rotation3 cross_sq // !mxtraceD mxtrace1 !mxtraceZ raddfB /= tr_outer uu mxtrace1.
have -> : \tr (cross u) = 0 by rewrite /mxtrace sum3 !mxE /= !addr0.
ringm R.
Qed.
Lemma diagonal_axis : unitvec (normalize (vec3 1 (-1) 0 : 'rV[F]_3)) /\ vsum (normalize (vec3 1 (-1) 0 : 'rV[F]_3)) = 0.
Proof.
have n0 : vec3 1 (-1) 0 != 0 :> 'rV[F]_3.
  by apply/negP => /eqP/rowP/(_ 0); rewrite !mxE /= => /eqP; rewrite oner_eq0.
split; first exact: normalize_unit.
by rewrite /vsum sum3 !mxE /= mulr0 addr0 mulr1 mulrN1 subrr.
Qed.
Example C69_example : exists M : 'M[F]_3, [/\ so3 M, axis_of M != 0, vsum (axis_of M) = 0 & \tr M != 1].
Proof.
have [uu su] := diagonal_axis; set u := normalize _ in uu su.
have five : 5%:R != 0 :> F by rewrite pnatr_eq0.
exists (rotation3 (4%:R / 5%:R) (3%:R / 5%:R) u); rewrite axis_rotation3 trace_rotation3 //; split.
- apply: rotation3_so3 => //; rewrite !expr_div_n -mulrDl -!natrX -natrD.
  by rewrite mulfV // pnatr_eq0.
- rewrite scaler_eq0 !mulf_eq0 invr_eq0 !pnatr_eq0 /=; apply/negP => /eqP u0.
  by move: uu; rewrite /unitvec u0 /dot big1 => [/esym/eqP|i _]; rewrite ?oner_eq0 // mxE mul0r.
- rewrite /vsum (eq_bigr (fun i => 2%:R * (3%:R / 5%:R) * u 0 i)) => [|i _]; last by rewrite [LHS]mxE.
  by rewrite -mulr_sumr -/(vsum u) su mulr0.
- by rewrite addrC -subr_eq0 addrK !mulf_eq0 invr_eq0 !pnatr_eq0.
Qed.

(* ---- C71: which elements cannot be printed ---- *)
Variables (rnd : F -> F) (pi : F).
Local Notation print := (pretty_print_pge atan2 eigh rnd pi).

(* no name is assigned in dimension 0, 4, 5, ... *)
Theorem C71_dimension_refuted d (M : 'M[F]_d) conj anti : d \notin [:: 1; 2; 3]%N -> print M conj anti = Err NameError.
Proof. by case: d M => [|[|[|[|d]]]] M. Qed.

Lemma so3_or_minus (M : 'M[F]_3) : M^T *m M = 1%:M -> if \det M == 1 then so3 M else so3 (- M).
Proof.
move=> o; case: eqP => [d|/eqP d]; first by split.
split; first by rewrite [(- M)^T]linearN /= mulNmx mulmxN opprK.
have := congr1 determinant o; rewrite det_mulmx det_tr det1 => /eqP; rewrite -expr2 sqrf_eq1 (negbTE d) /= => /eqP e.
by rewrite -scaleN1r detZ e -signr_odd /= expr1 mulrNN mulr1.
Qed.

(* three dimensions: the test in rotation_to_angle may fail if the components of the axis add up to zero *)
Theorem C71_three (M : 'M[F]_3) conj anti : M^T *m M = 1%:M ->
  (M^T = M \/ vsum (axis_of M) <> 0) -> exists name, print M conj anti = Ok name.
Proof.
move=> o h; suff [r er] : exists r, pge_rot_name atan2 eigh rnd pi M = Ok r by rewrite /pretty_print_pge er /=; eexists.
have rta (N : 'M[F]_3) : so3 N -> (N^T = N \/ vsum (axis_of N) <> 0) -> exists nt, rotation_to_angle atan2 eigh N = Ok nt.
  move=> so [sy|/eqP n0].
    by have [u [t -> _]] := C69_symmetric so (sym_axis sy); eexists.
  by have [u [t -> _]] := C69_recovered so n0; eexists.
have := so3_or_minus o; rewrite /= /rot_name3; case: ifP => _ so.
  by have [nt ->] := rta _ so h; rewrite /=; eexists.
have [|nt ->] := rta _ so; last by rewrite /=; eexists.
case: h => [sy|n0]; [left; by rewrite linearN /= sy|right].
have -> : axis_of (- M) = - axis_of M by apply/rowP => i; rewrite !mxE mulmxN raddfN.
by rewrite /vsum; under eq_bigr do rewrite mxE; rewrite sumrN => /eqP; rewrite oppr_eq0 => /eqP.
Qed.

Lemma orth2 (M : 'M[F]_2) : M^T *m M = 1%:M -> \det M != 1 -> M^T = M /\ \tr M = 0.
Proof.
move=> o d; have := congr1 determinant o; rewrite det_mulmx det_tr det1 => /eqP; rewrite -expr2 sqrf_eq1 (negbTE d) /= => /eqP e.
have ea : \adj M = - M^T by rewrite -[LHS]mul1mx -o -mulmxA mul_mx_adj e mul_mx_scalar scaleN1r.
have h i j := congr1 (fun X : 'M[F]_2 => X i j) ea.
have := h 0 0; have := h 0 1; have := h 1 0; rewrite !mxE /cofactor !det_mx11 !mxE /= ?expr0 ?expr1 ?addn0 ?add0n !mul1r !mulN1r.
have l0 : lift 1 0 = 0 :> 'I_2 by apply: val_inj.
have l1 : lift 0 0 = 1 :> 'I_2 by apply: val_inj.
rewrite !l0 !l1 => /eqP; rewrite eqr_opp => /eqP e10 _ e11.
split; last by rewrite /mxtrace !big_ord_recl big_ord0 addr0 l1 e11 addrN.
by apply: PropHexagonal.mat2P; rewrite !mxE.
Qed.

Theorem C71_two (M : 'M[F]_2) conj anti : M^T *m M = 1%:M -> exists name, print M conj anti = Ok name.
Proof.
move=> o; suff [r er] : exists r, pge_rot_name atan2 eigh rnd pi M = Ok r by rewrite /pretty_print_pge er /=; eexists.
rewrite /= /rot_name2; case: ifP => [_|/negbT d]; first by eexists.
have [sy t0] := orth2 o d; have [sz ok so all] := eig M; rewrite lower_sym // in ok all; rewrite sy in o.
have ev (e : F) : e * e = 1 -> e \in map fst (eigh M).
  move=> ee; have : M + e%:M != 0.
    apply/negP => /eqP z; have := congr1 mxtrace z; rewrite mxtraceD t0 add0r mxtrace_scalar mxtrace0 => /eqP.
    by rewrite mulrn_eq0 /= => /eqP e0; move/eqP: ee; rewrite e0 mul0r eq_sym oner_eq0.
  case/matrix0Pn => i [j nz]; apply: (all e (row i (M + e%:M))).
    by apply/negP => /eqP/rowP/(_ j); rewrite mxE => z; rewrite z mxE eqxx in nz.
  by rewrite -row_mul -linearZ /= mulmxDl o mul_scalar_mx scalerDr scale_scalar_mx ee addrC.
suff -> : map fst (eigh M) == [:: -1; 1] by eexists.
have p1 := ev 1 (mulr1 _); have n1 := ev (-1) (etrans (mulrNN _ _) (mulr1 _)).
have lt : -1 < 1 :> F by rewrite ltr_oppl (lt_trans _ ltr01) // oppr_lt0 ltr01.
move: so p1 n1; have : size (map fst (eigh M)) = 2%N by rewrite size_map.
case: (map _ _) => [|x [|y [|]]] //= _; rewrite andbT !inE => xy /orP[]/eqP e1 /orP[]/eqP e2.
- by move: lt; rewrite e2 -e1 ltxx.
- by move: xy; rewrite leNgt -e1 -e2 lt.
- by rewrite -e1 -e2 !eqxx.
- by move: lt; rewrite e2 -e1 ltxx.
Qed.
Theorem C71_one (M : 'M[F]_1) conj anti : exists name, print M conj anti = Ok name.
Proof. by rewrite /pretty_print_pge /=; eexists. Qed.

(* a rotation that cannot be printed: about (1, -1, 0), by less than a quarter turn *)
Theorem C71_assert_refuted (c s : F) conj anti : c ^+ 2 + s ^+ 2 = 1 -> 0 < s -> 1 < c + s ->
  print (rotation3 c s (normalize (vec3 1 (-1) 0))) conj anti = Err AssertionError.
Proof.
move=> cs1 s0 cs_; set u := normalize _; have [uu su] := diagonal_axis; rewrite -/u in uu su.
set M := rotation3 c s u; have so : so3 M by apply: rotation3_so3.
rewrite /pretty_print_pge /= /rot_name3 so.2 eqxx /rotation_to_angle.
have -> : vsum (axis_of M) = 0.
  rewrite axis_rotation3 /vsum (eq_bigr (fun i => 2%:R * s * u 0 i)) => [|i _]; last by rewrite [LHS]mxE.
  by rewrite -mulr_sumr -/(vsum u) su mulr0.
rewrite sgr0 mulr0 eqxx; case el : (last _ _) => [x v].
suff -> : x != 1 by [].
have [sz _ srt all] := eig M.
suff le : c + s <= x by apply/negP => /eqP x1; move: le; rewrite x1 leNgt cs_.
have -> : x = last 0 (map fst (eigh M)) by rewrite (last_map fst (eigh M) (0, 0)) el.
apply: last_max => //.
pose h := (norm (vec3 1 (-1) 0 : 'rV[F]_3))^-1.
have u0 : u 0 0 = h by rewrite !mxE mulr1.
have u1 : u 0 1 = - h by rewrite !mxE mulrN1.
have u2 : u 0 2 = 0 by rewrite !mxE mulr0.
have hh : h * h + h * h = 1 by move: uu; rewrite /unitvec dot3 u0 u1 u2 mulr0 addr0 mulrNN.
clearbody h; clearbody u; pose w : 'rV[F]_3 := vec3 1 1 (h + h).
apply: (all _ w).
  by apply/negP => /eqP/rowP/(_ 0); rewrite !mxE /= => /eqP; rewrite oner_eq0.
have e00 : M 0 0 = 1 + (1 - c) * (h * h - 1) by rewrite /M /rotation3 cross_sq // !(mxE, big_ord1) u0 /= mulr0 addr0.
have e01 : M 1 0 = - (1 - c) * (h * h) by rewrite /M /rotation3 cross_sq // !(mxE, big_ord1) u0 u1 u2 /=; ringm R.
have e11 : M 1 1 = 1 + (1 - c) * (h * h - 1) by rewrite /M /rotation3 cross_sq // !(mxE, big_ord1) u1 /= mulr0 addr0 mulrNN.
have e20 : M 2 0 = s * h by rewrite /M /rotation3 cross_sq // !(mxE, big_ord1) u0 u1 u2 /=; ringm R.
have e21 : M 2 1 = s * h by rewrite /M /rotation3 cross_sq // !(mxE, big_ord1) u0 u1 u2 /=; ringm R.
have e22 : M 2 2 = c by rewrite /M /rotation3 cross_sq // !(mxE, big_ord1) u2 /=; ringm R.
clearbody M.
have k0 : M 0 0 + M 1 0 + (h + h) * M 2 0 = c + s.
  by rewrite e00 e01 e20; transitivity (c + s * (h * h + h * h)); [ringm R|rewrite hh mulr1].
have k1 : M 1 0 + M 1 1 + (h + h) * M 2 1 = c + s.
  by rewrite e11 e01 e21; transitivity (c + s * (h * h + h * h)); [ringm R|rewrite hh mulr1].
have k2 : M 2 0 + M 2 1 + (h + h) * M 2 2 = (c + s) * (h + h) by rewrite e20 e21 e22; ringm R.
apply/rowP => j; rewrite !(mxE, sum3) /= !mul1r.
case: j => [[|[|[|//]]] p] /=; rewrite ?mulr1.
- by rewrite -k0; congr (M _ _ + M _ _ + _ * M _ _); apply: val_inj.
- by rewrite -k1; congr (M _ _ + M _ _ + _ * M _ _); apply: val_inj.
- by rewrite -k2; congr (M _ _ + M _ _ + _ * M _ _); apply: val_inj.
Qed.
Example C71_assert_example conj anti :
  print (rotation3 (4%:R / 5%:R) (3%:R / 5%:R) (normalize (vec3 1 (-1) 0))) conj anti = Err AssertionError.
Proof.
have five : 0 < 5%:R :> F by rewrite ltr0n.
apply: C71_assert_refuted.
- rewrite !expr_div_n -mulrDl -!natrX -natrD.
  by rewrite mulfV // pnatr_eq0.
- by rewrite divr_gt0 // ltr0n.
- by rewrite -mulrDl -natrD ltr_pdivl_mulr // mul1r ltr_nat.
Qed.

(* ---- C70: the printed axis ---- *)
Lemma vdotE d (u v : 'rV[F]_d) : vdot u v = dot u v. Proof. by []. Qed.
Lemma dotC d (u v : 'rV[F]_d) : dot u v = dot v u.
Proof. by apply: eq_bigr => i _; rewrite mulrC. Qed.
Lemma norm_dot d (u : 'rV[F]_d) : norm u * norm u = dot u u.
Proof. by rewrite normE -expr2 sqr_sqrtr // dot_ge0. Qed.
(* equality in the inequality of Cauchy and Schwarz *)
Lemma parallel d (u v : 'rV[F]_d) : unitvec u -> dot v u = norm v -> v = norm v *: u.
Proof.
move=> uu e; apply/eqP; rewrite -subr_eq0 -dot_eq0.
have -> : dot (v - norm v *: u) (v - norm v *: u) = dot v v - 2%:R * (norm v * dot v u) + norm v * norm v * dot u u.
  rewrite /dot !mulr_sumr -sumrB -big_split /=; apply: eq_bigr => i _; rewrite !mxE.
  by move: (v 0 i) (u 0 i) (norm v) => x y z; ringm R.
rewrite e uu mulr1 norm_dot; apply/eqP; ringm R.
Qed.

Local Notation raxis := (@round_axis F rnd).
(* an axis that is printed with integers has the direction of the axis of the element *)
Theorem C70_single d (u : 'rV[F]_d) : unitvec u ->
  (exists a : F, a > 0 /\ raxis u = a *: u) \/ raxis u = map_mx rnd u.
Proof.
move=> uu; rewrite /round_axis; case ef : [seq _ <- _ | _] => [|v l]; [by right|left].
have : v \in [seq v <- signs d | (vdot (int_vec F d v) u == norm (int_vec F d v)) && (norm (int_vec F d v) != 0)].
  by rewrite ef mem_head.
rewrite mem_filter => /andP[/andP[/eqP e n0] _]; exists (norm (int_vec F d v)); split; last exact: parallel.
by rewrite lt_def n0 normE sqrtr_ge0.
Qed.

(* integer vectors *)
Fixpoint zdot (u v : seq int) : int := match u, v with x :: u', y :: v' => x * y + zdot u' v' | _, _ => 0 end.
Lemma zdotE d (u v : seq int) : size u = d -> size v = d -> vdot (int_vec F d u) (int_vec F d v) = (zdot u v)%:~R.
Proof.
elim: d u v => [|d ih] [|x u] [|y v] //=; first by rewrite /vdot big_ord0.
move=> [su] [sv]; rewrite /vdot big_ord_recl !mxE /= intrD intrM; congr (_ + _).
by rewrite -(ih u v su sv); apply: eq_bigr => i _; rewrite !mxE /=.
Qed.
Definition zgood (m v : seq int) : bool := [&& 0 <= zdot v m, zdot v m * zdot v m == zdot v v & zdot v v != 0].
Lemma zgoodE d (m v : seq int) : size m = d -> size v = d ->
  (vdot (int_vec F d v) (int_vec F d m) == norm (int_vec F d v)) && (norm (int_vec F d v) != 0) = zgood m v.
Proof.
move=> sm sv; rewrite norm_eq0 -dot_eq0 -vdotE !zdotE // intr_eq0 /zgood andbA; congr (_ && _).
rewrite normE -vdotE zdotE // -(ler0z F) -(eqr_int F) intrM.
have ge0 : 0 <= (zdot v v)%:~R :> F by rewrite -(zdotE sv sv) vdotE dot_ge0.
apply/eqP/andP => [->|[p /eqP e]]; first by rewrite sqrtr_ge0 -expr2 sqr_sqrtr.
by rewrite -e -expr2 sqrtr_sqr ger0_norm.
Qed.
Definition zround (d : nat) (m : seq int) : option (seq int) := ohead [seq v <- signs d | zgood m v].
Lemma size_signs d v : v \in signs d -> size v = d.
Proof.
elim: d v => [|d ih] v; first by rewrite inE => /eqP ->.
by rewrite /signs -/signs => /allpairsP[[x w] /= [_ /ih iw ->]] /=; rewrite iw.
Qed.
Lemma round_int d (m : seq int) : size m = d ->
  raxis (int_vec F d m) = if zround d m is Some v then int_vec F d v else map_mx rnd (int_vec F d m).
Proof.
move=> sm; rewrite /round_axis /zround.
rewrite (@eq_in_filter _ _ (zgood m)) => [|v /size_signs sv]; last exact: zgoodE.
by case: [seq _ <- _ | _].
Qed.
Lemma int_vec_inj d (u v : seq int) : size u = d -> size v = d -> int_vec F d u = int_vec F d v -> u = v.
Proof.
move=> su sv e; apply: (@eq_from_nth _ 0) => [|i]; rewrite su ?sv // => lt.
by move/rowP: e => /(_ (Ordinal lt)); rewrite !mxE /= => /eqP; rewrite eqr_int => /eqP.
Qed.
Lemma signs_mem d (v : seq int) i : v \in signs d -> nth 0 v i \in [:: -1; 0; 1 : int].
Proof.
elim: d v i => [|d ih] v i; first by rewrite inE => /eqP ->; rewrite nth_nil.
by rewrite /signs -/signs => /allpairsP[[x w] /= [xs /ih iw ->]]; case: i => [|i] /=.
Qed.

(* one rounding is right for the 26 axes with components -1, 0, 1 *)
Theorem C70_one_rounding d (v : seq int) : v \in signs d -> int_vec F d v != 0 ->
  raxis (normalize (int_vec F d v)) = int_vec F d v.
Proof.
move=> vs v0; set u := normalize _; have uu : unitvec u by apply: normalize_unit.
have good w : w \in [seq v <- signs d | (vdot (int_vec F d v) u == norm (int_vec F d v)) && (norm (int_vec F d v) != 0)] -> w = v.
  rewrite mem_filter => /andP[/andP[/eqP e n0] ws]; apply: (int_vec_inj (size_signs ws) (size_signs vs)).
  have ew := parallel uu e; have ev : int_vec F d v = norm (int_vec F d v) *: u by apply: normalizeK.
  have nv : 0 < norm (int_vec F d v) by rewrite lt_def norm_eq0 v0 normE sqrtr_ge0.
  have nw : 0 < norm (int_vec F d w) by rewrite lt_def n0 normE sqrtr_ge0.
  clearbody u; apply/rowP => i; have := congr1 (fun x : 'rV[F]_d => x 0 i) ew; have := congr1 (fun x : 'rV[F]_d => x 0 i) ev.
  rewrite [LHS]mxE [RHS]mxE => ea; rewrite [LHS]mxE [RHS]mxE => eb.
  move: (signs_mem i vs) (signs_mem i ws) ea eb; rewrite !mxE.
  move: (nth 0 v i) (nth 0 w i) => a b ha hb ea eb.
  have sg x : x \in [:: -1; 0; 1 : int] -> x%:~R = Num.sg (x%:~R : F).
    by rewrite !inE => /or3P[] /eqP ->; rewrite ?mulrN1z ?sgrN ?sgr1 ?sgr0.
  by rewrite sg // [RHS]sg // ea eb !sgrM (gtr0_sg nv) (gtr0_sg nw).
rewrite /round_axis; case ef : [seq _ <- _ | _] => [|w l]; last by rewrite (good w) // ef mem_head.
suff : v \in ([::] : seq (seq int)) by [].
rewrite -ef mem_filter vs norm_eq0 v0 !andbT vdotE.
rewrite /u /normalize -{1}[int_vec F d v]scale1r dotZ mul1r -norm_dot mulKf // norm_eq0.
by [].
Qed.

(* the axis of a generator of rotations is rounded twice, which is right for the coordinate axes only *)
Lemma axis_cross (v : 'rV[F]_3) : \row_i (- \tr (list1 F i *m cross v)) = 2%:R *: v.
Proof.
rewrite -/(axis_of (cross v)) axis_ofE.
have [a ->] : exists a : nat -> F, v = \row_i a i by exists (fun i => v 0 (inord i)); apply/rowP => i; rewrite mxE inord_val.
apply/rowP => i; rewrite !mxE.
case: i => [[|[|[|//]]] ?] /=; rewrite -?[(1 %% 3)%N]/1%N -?[(1 + 1)%N]/2%N -?[(2 %% 3)%N]/2%N /=; ringm R.
Qed.
Lemma normalizeZ d (a : F) (v : 'rV[F]_d) : 0 < a -> normalize (a *: v) = normalize v.
Proof.
move=> a0; have e : norm (a *: v) = a * norm v.
  by rewrite !normE dotZ sqrtrM ?sqrtr_sqr ?gtr0_norm // -expr2 ?sqrtr_sqr ?gtr0_norm // sqr_ge0.
by rewrite /normalize e scalerA invfM -mulrA (mulrC _ a) mulrA mulVf ?mul1r // gt_eqF.
Qed.

Theorem C70_generator (a : F) (v : seq int) : v \in signs 3 -> int_vec F 3 v != 0 -> 0 < a ->
  cgg_axis rnd (a *: cross (int_vec F 3 v)) = int_vec F 3 v <-> count (fun x => x != 0) v = 1%N.
Proof.
move=> vs v0 a0.
have -> : cgg_axis rnd (a *: cross (int_vec F 3 v)) = raxis (int_vec F 3 v).
  rewrite /cgg_axis; congr (round_axis _ _); rewrite -[RHS]C70_one_rounding //; congr (round_axis _ _).
  have -> : \row_i (- \tr (list1 F i *m (a *: cross (int_vec F 3 v)))) = (a * 2%:R) *: int_vec F 3 v.
    rewrite -scalerA -axis_cross; apply/rowP => i; rewrite !mxE -scalemxAr mxtraceZ mulrN.
    by congr (- _).
  by rewrite normalizeZ // mulr_gt0 // ltr0n.
rewrite round_int; last exact: size_signs.
have tab : all (fun v => (zdot v v == 0) || ((zround 3 v == Some v) == (count (fun x => x != 0) v == 1%N)) && isSome (zround 3 v)) (signs 3).
  by vm_compute.
have nz : zdot v v != 0 by rewrite -(intr_eq0 F) -(zdotE (size_signs vs) (size_signs vs)) vdotE dot_eq0.
have := allP tab _ vs; rewrite (negbTE nz) /= => /andP[/eqP e]; case ez : (zround 3 v) => [w|] // _.
rewrite ez in e; split=> [ew|/eqP cv].
  have ws : w \in signs 3.
    by move: ez; rewrite /zround; case ef : [seq _ <- _ | _] => [|w' l] //= [<-]; have := mem_head w' l; rewrite -ef mem_filter => /andP[].
  by apply/eqP; rewrite -e (int_vec_inj (size_signs ws) (size_signs vs) ew).
by move: e; rewrite cv => /eqP[->].
Qed.
(* the generator of rotations about (1, 1, 0) is printed with the axis (0, 1, 0) *)
Theorem C70_twice_refuted (K := cross (vec3 1 1 0 : 'rV[F]_3)) n (L : 'M[F[i]]_n) : L != 0 ->
  pretty_print_cgg rnd (Some K) (Some L) = Ok (CRot3 (vec3 0 1 0)) /\
  (forall a : F, vec3 0 1 0 != a *: vec3 1 1 0 :> 'rV[F]_3).
Proof.
move=> L0; split; last first.
  move=> a; apply/negP => /eqP/rowP h; have := h 1; have := h 0; rewrite !mxE /= mulr1 => <-.
  by move/eqP; rewrite oner_eq0.
rewrite /pretty_print_cgg (negbTE L0) /=; case: eqP => [k0|_].
  by have /eqP := congr1 (fun X : 'M[F]_3 => X 0 2) k0; rewrite !mxE /= oner_eq0.
have iv x y z : vec3 x%:~R y%:~R z%:~R = int_vec F 3 [:: x; y; z].
  by apply/rowP => i; rewrite !mxE; case: i => [[|[|[|//]]] ?].
congr (Ok (CRot3 _)); rewrite /cgg_axis /K axis_cross normalizeZ ?ltr0n //.
rewrite -[vec3 1 1 0]/(vec3 1%:~R 1%:~R 0%:~R) iv C70_one_rounding //; last first.
  by apply/negP => /eqP/rowP/(_ 0); rewrite !mxE /= => /eqP; rewrite oner_eq0.
by rewrite round_int // -[vec3 0 1 0]/(vec3 0%:~R 1%:~R 0%:~R) iv.
Qed.
(* ... and (1, 1, 1) with the axis (0, 0, 1) *)
Example C70_example : zround 3 [:: 1; 1; 1] = Some [:: 0; 0; 1] /\ zround 3 [:: 1; 1; 0] = Some [:: 0; 1; 0] /\
  zround 3 [:: 0; 0; -1] = Some [:: 0; 0; -1] /\ zround 3 [:: 1; -1; 0] = Some [:: 0; -1; 0].
Proof. by vm_compute. Qed.

(* ---- C71: generators ---- *)
Theorem C71_generator d n (K : option 'M[F]_d) (L : 'M[F[i]]_n) : L != 0 -> exists r, pretty_print_cgg rnd K (Some L) = Ok r.
Proof. by move=> L0; rewrite /pretty_print_cgg (negbTE L0); eexists. Qed.
Theorem C71_generator_refuted d n (K : option 'M[F]_d) :
  pretty_print_cgg rnd K (None : option 'M[F[i]]_n) = Err NameError /\
  pretty_print_cgg rnd K (Some (0 : 'M[F[i]]_n)) = Err NameError.
Proof. by rewrite /pretty_print_cgg eqxx. Qed.
End Angle.

Print Assumptions C69_recovered.
Print Assumptions C69_symmetric.
Print Assumptions C69_zero_sum_refuted.
Print Assumptions C69_twofold_refuted.
Print Assumptions C70_single.
Print Assumptions C70_generator.
Print Assumptions C70_twice_refuted.
Print Assumptions C71_two.
Print Assumptions C71_three.
Print Assumptions C71_assert_refuted.
