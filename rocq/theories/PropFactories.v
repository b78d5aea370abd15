(* C80: mirrors, rotations, inversion and the Altland-Zirnbauer factories. *)
From mathcomp Require Import all_ssreflect all_algebra.
From mathcomp Require Import complex.
From Verif Require Import Prelude RingTac PGE Spin Factories.

Set Implicit Arguments.
Unset Strict Implicit.
Unset Printing Implicit Defensive.
Import Order.TTheory GRing.Theory Num.Theory.
Local Open Scope ring_scope.
Local Open Scope complex_scope.

Section Det.
Variables (R : comRingType) (p q : nat).
(* det(1 - A B) = det(1 - B A) *)
Lemma det_swap (A : 'M[R]_(p, q)) (B : 'M[R]_(q, p)) : \det (1%:M - A *m B) = \det (1%:M - B *m A).
Proof.
have e1 : block_mx 1%:M A B 1%:M = block_mx 1%:M 0 B 1%:M *m block_mx 1%:M A 0 (1%:M - B *m A).
  by rewrite mulmx_block ?(mul1mx, mulmx1, mul0mx, mulmx0, addr0, add0r) addrC subrK.
have e2 : block_mx 1%:M A B 1%:M = block_mx (1%:M - A *m B) A 0 1%:M *m block_mx 1%:M 0 B 1%:M.
  by rewrite mulmx_block ?(mul1mx, mulmx1, mul0mx, mulmx0, addr0, add0r) subrK.
have := congr1 determinant e2; rewrite e1 !det_mulmx !det_ublock !det_lblock !det1.
by rewrite ?(mul1r, mulr1).
Qed.
End Det.

Section Cross.
Variable F : rcfType.
Let R := [comRingType of F].
Add Ring Rr : (R_ring R).
Local Notation C := F[i].
Implicit Types (u v : 'rV[F]_3) (c s : F).

Definition dot d (u v : 'rV[F]_d) : F := \sum_i u 0 i * v 0 i.
Definition unitvec d (u : 'rV[F]_d) := dot u u = 1.

Lemma dotE d (u v : 'rV[F]_d) : u *m v^T = (dot u v)%:M.
Proof. by apply/matrixP => i j; rewrite !ord1 !mxE eqxx mulr1n; apply: eq_bigr => k _; rewrite !mxE. Qed.

Lemma dotZ d (a b : F) (u v : 'rV[F]_d) : dot (a *: u) (b *: v) = a * b * dot u v.
Proof. by rewrite /dot mulr_sumr; apply: eq_bigr => k _; rewrite !mxE mulrACA. Qed.

Lemma dot_ge0 d (u : 'rV[F]_d) : 0 <= dot u u.
Proof. by apply: sumr_ge0 => i _; rewrite -expr2 sqr_ge0. Qed.

Lemma dot_eq0 d (u : 'rV[F]_d) : (dot u u == 0) = (u == 0).
Proof.
apply/eqP/eqP => [/psumr_eq0P H|->]; last by rewrite /dot big1 // => i _; rewrite mxE mul0r.
apply/rowP => i; rewrite mxE; apply/eqP; have := H _ i; rewrite -expr2 => /(_ _ isT) /eqP.
by rewrite sqrf_eq0; apply=> j _; rewrite -expr2 sqr_ge0.
Qed.

Lemma normE d (u : 'rV[F]_d) : norm u = Num.sqrt (dot u u).
Proof. by rewrite /norm /dot; congr Num.sqrt; apply: eq_bigr => i _; rewrite expr2. Qed.

Lemma norm_eq0 d (u : 'rV[F]_d) : (norm u == 0) = (u == 0).
Proof. by rewrite normE -dot_eq0 sqrtr_eq0 eq_le dot_ge0 andbT. Qed.

Lemma normalize_unit d (u : 'rV[F]_d) : u != 0 -> unitvec (normalize u).
Proof.
move=> u0; rewrite /unitvec /normalize dotZ -invfM normE -expr2 sqr_sqrtr ?dot_ge0 //.
by rewrite mulVf ?dot_eq0.
Qed.

Lemma normalizeK d (u : 'rV[F]_d) : u != 0 -> u = norm u *: normalize u.
Proof. by move=> u0; rewrite /normalize scalerA mulfV ?scale1r ?norm_eq0. Qed.

(* ---- reflections ---- *)
Lemma reflection_tr d (u : 'rV[F]_d) : (reflection u)^T = reflection u.
Proof. by rewrite /reflection linearB /= linearZ /= trmx1 trmx_mul trmxK. Qed.

Lemma outer_sq d (u : 'rV[F]_d) : unitvec u -> (u^T *m u) *m (u^T *m u) = u^T *m u.
Proof. by move=> uu; rewrite -mulmxA (mulmxA u) dotE uu mul1mx. Qed.

Lemma reflectionK d (u : 'rV[F]_d) : unitvec u -> reflection u *m reflection u = 1%:M.
Proof.
move=> uu; rewrite /reflection mulmxBl mul1mx mulmxBr mulmx1 -scalemxAl -scalemxAr outer_sq //.
have e2 (X : 'M[F]_d) : X - 2%:R *: X = - X by rewrite scaler_nat mulr2n opprD addrA subrr add0r.
by rewrite e2 opprK subrK.
Qed.

Lemma reflection_det d (u : 'rV[F]_d) : unitvec u -> \det (reflection u) = -1.
Proof.
move=> uu; rewrite /reflection scalemxAl det_swap -scalemxAr dotE uu.
by rewrite scale_scalar_mx mulr1 -raddfB /= det_scalar1 mulr2n opprD addrA subrr add0r.
Qed.

Lemma reflection_axis d (u : 'rV[F]_d) : unitvec u -> reflection u *m u^T = - u^T.
Proof.
move=> uu; rewrite /reflection mulmxBl mul1mx -scalemxAl -mulmxA dotE uu mulmx1.
by rewrite scaler_nat mulr2n opprD addrA subrr add0r.
Qed.

Lemma reflection_perp d (u v : 'rV[F]_d) : dot u v = 0 -> reflection u *m v^T = v^T.
Proof. by move=> uv; rewrite /reflection mulmxBl mul1mx -scalemxAl -mulmxA dotE uv raddf0 mulmx0 scaler0 subr0. Qed.

(* ---- rotations about an axis ---- *)
Lemma dot3 u v : dot u v = u 0 0 * v 0 0 + u 0 1 * v 0 1 + u 0 2 * v 0 2.
Proof. by rewrite /dot !big_ord_recr big_ord0 /= add0r; do ![congr (_ + _)|congr (_ * _)]; congr (_ _ _); apply: val_inj. Qed.

Lemma mat3P (A B : 'M[F]_3) : [/\ A 0 0 = B 0 0, A 0 1 = B 0 1 & A 0 2 = B 0 2] ->
  [/\ A 1 0 = B 1 0, A 1 1 = B 1 1 & A 1 2 = B 1 2] -> [/\ A 2 0 = B 2 0, A 2 1 = B 2 1 & A 2 2 = B 2 2] -> A = B.
Proof.
case=> a1 a2 a3 [b1 b2 b3] [c1 c2 c3]; apply/matrixP.
have o (i : 'I_3) : [\/ i = 0, i = 1 | i = 2].
  by case: i => [[|[|[|]]]] // p; [constructor 1|constructor 2|constructor 3]; apply: val_inj.
by move=> i j; case: (o i) => ->; case: (o j) => ->.
Qed.

Lemma crossT u : (cross u)^T = - cross u.
Proof. by apply: mat3P; split; rewrite !mxE /= ?oppr0 ?opprK. Qed.

Lemma sum3 (f : 'I_3 -> F) : \sum_i f i = f 0 + f 1 + f 2.
Proof. by rewrite !big_ord_recr big_ord0 /= add0r; do ![congr (_ + _)]; congr f; apply: val_inj. Qed.

Lemma cross_sq u : unitvec u -> cross u *m cross u = u^T *m u - 1%:M.
Proof.
rewrite /unitvec dot3 => uu.
by apply: mat3P; split; rewrite !(mxE, sum3, big_ord1) /= ?mulr1n ?mulr0n -?uu; ringm R.
Qed.

Lemma cross_axis u : cross u *m u^T = 0.
Proof.
apply/matrixP => i j; rewrite ord1 !mxE sum3 !mxE.
by case: i => [[|[|[|]]]] // p; rewrite /= ?mxE /=; ringm R.
Qed.

Lemma cross_cube u : unitvec u -> cross u *m cross u *m cross u = - cross u.
Proof.
move=> uu; rewrite cross_sq // mulmxBl mul1mx -[X in _ - X]opprK.
suff -> : u^T *m u *m cross u = 0 by rewrite sub0r opprK.
have := congr1 trmx (cross_axis u); rewrite trmx_mul trmxK crossT mulmxN trmx0 => /eqP.
by rewrite oppr_eq0 -mulmxA => /eqP ->; rewrite mulmx0.
Qed.

Lemma rotation3_mul c s c' s' u : unitvec u ->
  rotation3 c s u *m rotation3 c' s' u = rotation3 (c * c' - s * s') (s * c' + c * s') u.
Proof.
move=> uu; rewrite /rotation3; set K := cross u; set Q := K *m K.
have k3 : Q *m K = - K by apply: cross_cube.
have k3' : K *m Q = - K by rewrite mulmxA.
have k4 : Q *m Q = - Q by rewrite mulmxA k3 mulNmx.
rewrite !(mulmxDl, mulmxDr, mul1mx, mulmx1) -!scalemxAl -!scalemxAr k3 k3' k4 -/Q !scalerN -!scaleNr !scalerA -!addrA.
apply/matrixP => i j; move: (Q) => Q'; rewrite !mxE; move: (K i j) (Q' i j) (_ *+ _) => x y z; ringm R.
Qed.

Lemma rotation3_0 u : rotation3 1 0 u = 1%:M.
Proof. by rewrite /rotation3 subrr !scale0r !addr0. Qed.

Lemma rotation3_tr c s u : (rotation3 c s u)^T = rotation3 c (- s) u.
Proof. by rewrite /rotation3 !linearD /= !linearZ /= trmx1 trmx_mul crossT mulmxN mulNmx opprK scalerN scaleNr. Qed.

Lemma rotation3_orth c s u : unitvec u -> c ^+ 2 + s ^+ 2 = 1 ->
  rotation3 c s u *m (rotation3 c s u)^T = 1%:M.
Proof.
move=> uu cs1; rewrite rotation3_tr rotation3_mul // mulrN opprK -!expr2 cs1.
by rewrite (mulrC s) mulrN addrN rotation3_0.
Qed.

Lemma rotation3_axis c s u : rotation3 c s u *m u^T = u^T.
Proof. by rewrite /rotation3 !mulmxDl mul1mx -!scalemxAl -mulmxA cross_axis mulmx0 !scaler0 !addr0. Qed.

(* a vector orthogonal to the axis turns towards u x v *)
Lemma rotation3_perp c s u v : unitvec u -> dot u v = 0 ->
  rotation3 c s u *m v^T = c *: v^T + s *: (cross u *m v^T).
Proof.
move=> uu uv; rewrite /rotation3 cross_sq // !mulmxDl mul1mx -!scalemxAl mulmxBl -mulmxA dotE uv raddf0 mulmx0 sub0r mul1mx.
by rewrite scalerN scalerBl scale1r opprB addrC addrA subrK.
Qed.

(* the exponent of the code: -i u.L with the matrices of L_matrices(3, 1) *)
Lemma crossL u : map_mx (fun x : F => x%:C) (cross u) = - 'i *: \sum_a (u 0 a)%:C *: L1 F a.
Proof.
rewrite scaler_sumr.
under eq_bigr do rewrite scalerA /L1 scalerA mulrAC mulNr -expr2 sqr_i opprK mul1r.
rewrite !big_ord_recr big_ord0 /= add0r.
have -> : (widen_ord (leqnSn 2) (widen_ord (leqnSn 1) ord_max)) = 0 :> 'I_3 by apply: val_inj.
have -> : (widen_ord (leqnSn 2) ord_max) = 1 :> 'I_3 by apply: val_inj.
have -> : ord_max = 2 :> 'I_3 by apply: val_inj.
apply/matrixP => i j; rewrite !mxE /=.
case: i => [[|[|[|]]]] // p; case: j => [[|[|[|]]]] //= q;
 by rewrite ?(mulr0, mulr1, mulrN1, addr0, add0r, rmorphN, rmorph0).
Qed.

Lemma rotation2_mul (c s c' s' : F) :
  rotation2 c s *m rotation2 c' s' = rotation2 (c * c' - s * s') (s * c' + c * s').
Proof.
apply/matrixP => i j; rewrite !mxE !big_ord_recr big_ord0 /= !mxE.
by case: i => [[|[|]]] // p; case: j => [[|[|]]] //= q; ringm R.
Qed.

Lemma rotation2_orth (c s : F) : c ^+ 2 + s ^+ 2 = 1 -> rotation2 c s *m (rotation2 c s)^T = 1%:M /\ \det (rotation2 c s) = 1.
Proof.
move=> cs1; split; last first.
  by rewrite (expand_det_row _ 0) !big_ord_recr big_ord0 /= /cofactor !det_mx11 !mxE /= add0n expr0 expr1 -[RHS]cs1; ringm R.
apply/matrixP => i j; rewrite !mxE !big_ord_recr big_ord0 /= !mxE.
by case: i => [[|[|]]] // p; case: j => [[|[|]]] //= q; rewrite ?mulr1n ?mulr0n -?cs1; ringm R.
Qed.

Lemma reflection_rotation u : unitvec u -> reflection u = -1 *: rotation3 (-1) 0 u.
Proof.
move=> uu; rewrite /reflection /rotation3 cross_sq //; move: (cross u) (u^T *m u) => K X.
apply/matrixP => i j; rewrite !mxE; move: (_ *+ _) (K i j) (X i j) => z k x; ringm R.
Qed.
End Cross.

Section C80.
Variables (F : rcfType) (n : nat).
Local Notation C := F[i].
Implicit Types (U : option 'M[C]_n.+1) (spin : option (spin_rep F n)).

(* an orthogonal matrix *)
Definition orthogonal d (R : 'M[F]_d) := R *m R^T = 1%:M /\ R^T *m R = 1%:M.

Theorem C80_mirror d (axis : 'rV[F]_d) U : axis != 0 ->
  exists2 g, mirror axis U None = Ok g &
    [/\ [/\ pconj g = false, panti g = false & pU g = U],
        orthogonal (pR g), pR g *m pR g = 1%:M, \det (pR g) = -1 &
        pR g *m axis^T = - axis^T /\ forall v, dot axis v = 0 -> pR g *m v^T = v^T].
Proof.
move=> a0; have uu := normalize_unit a0; exists (Pge (reflection (normalize axis)) false false U false).
  by rewrite /mirror; case: U.
split=> //=; rewrite ?reflection_det ?reflectionK //.
- by split; rewrite reflection_tr reflectionK.
- split; first by rewrite {2 3}(normalizeK a0) linearZ /= -scalemxAr reflection_axis // scalerN.
  move=> v av; apply: reflection_perp; move: av; rewrite {1}(normalizeK a0).
  rewrite -[v in dot (_ *: _) v]scale1r dotZ mulr1 => /eqP; rewrite mulf_eq0 norm_eq0 (negPf a0) /=.
  by move/eqP.
Qed.

(* the spin representation acts as that of a half turn about the normal *)
Theorem C80_mirror_spin d (axis : 'rV[F]_d) (s : spin_rep F n) :
  exists2 g, mirror axis None (Some s) = Ok g &
    (forall g', mirror axis (None : option 'M[C]_n.+1) None = Ok g' -> pR g = pR g') /\
    pU g = Some (s 2%:R^-1 (spin_axis (normalize axis))).
Proof. by eexists; first reflexivity; split=> // g' [<-]. Qed.

Theorem C80_both_rejected d (axis : 'rV[F]_d) axis3 inv (cs sn : F -> F) angle (V : 'M[C]_n.+1) (s : spin_rep F n) :
  [/\ mirror axis (Some V) (Some s) = Err ValueError,
      time_reversal d (Some V) (Some s) = Err ValueError,
      rotation_2d cs sn angle (Some V) (Some s) = Err ValueError &
      rotation_3d cs sn angle axis3 inv (Some V) (Some s) = Err ValueError].
Proof. by []. Qed.

Section Trig.
Variables (cs sn : F -> F).
Hypothesis csD : forall a b, cs (a + b) = cs a * cs b - sn a * sn b.
Hypothesis snD : forall a b, sn (a + b) = sn a * cs b + cs a * sn b.
Hypothesis cs_sn : forall a, cs a ^+ 2 + sn a ^+ 2 = 1.

(* the matrices of a spin representation about a fixed axis compose *)
Definition spin_additive (spin : option (spin_rep F n)) (axis : 'rV[F]_3) :=
  if spin is Some s then forall a b, s (a + b) axis = s a axis *m s b axis else True.

Theorem C80_rotation_2d a b spin : spin_additive spin (vec3 0 0 1) ->
  exists g h gh, [/\ rotation_2d cs sn a None spin = Ok g, rotation_2d cs sn b None spin = Ok h,
                     rotation_2d cs sn (a + b) None spin = Ok gh, pge_mul g h = gh &
                     orthogonal (pR g) /\ \det (pR g) = 1].
Proof.
move=> add; have [o1 d1] := rotation2_orth (cs_sn a).
case: spin add => [s|] /= add; do 3!eexists; split; try reflexivity.
- by rewrite /pge_mul /= rotation2_mul add csD snD.
- by split=> //; split=> //; apply: mulmx1C.
- by rewrite /pge_mul /= rotation2_mul csD snD.
- by split=> //; split=> //; apply: mulmx1C.
Qed.

Lemma half (a : F) : a = a / 2%:R + a / 2%:R.
Proof. by rewrite -mulrDr -mulr2n -(mulr_natl _ 2) mulfV ?mulr1 // pnatr_eq0. Qed.

Theorem C80_rotation_3d a b axis inv inv' spin : axis != 0 -> spin_additive spin (normalize axis) ->
  exists g h gh, [/\ rotation_3d cs sn a axis inv None spin = Ok g, rotation_3d cs sn b axis inv' None spin = Ok h,
                     rotation_3d cs sn (a + b) axis (inv (+) inv') None spin = Ok gh, pge_mul g h = gh &
    [/\ orthogonal (pR g), \det (pR g) = (if inv then -1 else 1),
        pR g *m axis^T = (if inv then -1 else 1) *: axis^T &
        forall v, dot axis v = 0 ->
          pR g *m v^T = (if inv then -1 else 1) *: (cs a *: v^T + sn a *: (cross (normalize axis) *m v^T))]].
Proof.
move=> a0 add; have uu := normalize_unit a0; set u := normalize axis in uu add.
have sg (i j : bool) : (if i (+) j then -1 else 1) = (if i then -1 else 1) * (if j then -1 else 1) :> F.
  by case: i j => [] []; rewrite /= ?mulrNN ?mulr1 ?mul1r.
have sq (i : bool) : (if i then -1 else 1) * (if i then -1 else 1) = 1 :> F by case: i; rewrite ?mulrNN mulr1.
have prod : ((if inv then -1 else 1) *: rotation3 (cs a) (sn a) u) *m ((if inv' then -1 else 1) *: rotation3 (cs b) (sn b) u)
    = (if inv (+) inv' then -1 else 1) *: rotation3 (cs (a + b)) (sn (a + b)) u.
  by rewrite -scalemxAl -scalemxAr rotation3_mul // -csD -snD scalerA -sg.
have facts : let R := (if inv then -1 else 1) *: rotation3 (cs a) (sn a) u in
    [/\ orthogonal R, \det R = (if inv then -1 else 1),
        R *m axis^T = (if inv then -1 else 1) *: axis^T &
        forall v, dot axis v = 0 ->
          R *m v^T = (if inv then -1 else 1) *: (cs a *: v^T + sn a *: (cross u *m v^T))].
  have o1 : ((if inv then -1 else 1) *: rotation3 (cs a) (sn a) u) *m
            ((if inv then -1 else 1) *: rotation3 (cs a) (sn a) u)^T = 1%:M.
    by rewrite linearZ /= -scalemxAl -scalemxAr scalerA sq scale1r rotation3_orth.
  split.
  - by split=> //; apply: mulmx1C.
  - rewrite detZ {1 2}(half a) csD snD -rotation3_mul // det_mulmx.
    have := congr1 determinant (rotation3_orth uu (cs_sn (a / 2%:R))).
    rewrite det_mulmx det_tr det1 => ->; rewrite mulr1.
    by case: (inv); rewrite ?expr1n // -signr_odd.
  - by rewrite (normalizeK a0) linearZ /= -scalemxAl -scalemxAr rotation3_axis.
  - move=> v av; rewrite -scalemxAl rotation3_perp //.
    move: av; rewrite {1}(normalizeK a0) -[v in dot (_ *: _) v]scale1r dotZ mulr1 => /eqP.
    by rewrite mulf_eq0 norm_eq0 (negPf a0) => /eqP.
case: spin add => [s|] /= add; do 3!eexists; split; try reflexivity; try exact: facts.
- by rewrite /pge_mul /= prod add.
- by rewrite /pge_mul /= prod.
Qed.
End Trig.

(* a mirror in three dimensions is a half turn followed by inversion *)
Theorem C80_mirror_rotoinversion (cs sn : F -> F) (axis : 'rV[F]_3) spin :
  axis != 0 -> cs 2%:R^-1 = -1 -> sn 2%:R^-1 = 0 ->
  exists g h, [/\ mirror axis None spin = Ok g, rotation_3d cs sn 2%:R^-1 axis true None spin = Ok h & g = h].
Proof.
move=> a0 c2 s2; have uu := normalize_unit a0.
have E : reflection (normalize axis) = -1 *: rotation3 (-1) 0 (normalize axis) by apply: reflection_rotation.
have A : spin_axis (normalize axis) = normalize axis.
  by apply/rowP => i; rewrite mxE insubT //= => ii; congr (_ _ _); apply: val_inj.
by case: spin => [s|]; do 2!eexists; split; try reflexivity; rewrite /= c2 s2 ?E ?A.
Qed.

(* inversion commutes with everything, as long as its unitary part does *)
Theorem C80_inversion d (g : pge F d n) :
  [/\ pge_mul (inversion d None) g = pge_mul g (inversion d None),
      pge_mul (inversion d (Some 1%:M)) g = pge_mul g (inversion d (Some 1%:M)),
      forall U, pR (pge_mul (inversion d U) g) = pR (pge_mul g (inversion d U)) &
      pge_mul (inversion d None) (inversion d None) = identity F n d false].
Proof.
have RR : - 1%:M *m pR g = pR g *m - 1%:M by rewrite mulNmx mulmxN mul1mx mulmx1.
split=> [||U|].
- rewrite /pge_mul /= RR ?(addbF, orbF); congr Pge; by case: (pU g).
- rewrite /pge_mul /= RR ?(addbF, orbF); congr Pge; case: (pU g) => // V.
  by rewrite mul1mx /mxconj map_mx1 mulmx1; case: (pconj g).
- exact: RR.
- by rewrite /pge_mul /= mulmxN mulNmx opprK mulmx1.
Qed.

Theorem C80_chiral d (U_T U_P : option 'M[C]_n.+1) :
  exists2 T, time_reversal d U_T None = Ok T &
    pge_mul T (particle_hole d U_P) =
    chiral d (match U_T, U_P with Some A, Some B => Some (A *m mxconj B) | _, _ => None end).
Proof.
by case: U_T => [A|]; eexists; try reflexivity; rewrite /pge_mul /= mulmx1; case: U_P.
Qed.

(* the other products of the three *)
Theorem C80_altland_zirnbauer d :
  exists2 T : pge F d n, time_reversal d None None = Ok T &
    let P : pge F d n := particle_hole d None in let S : pge F d n := chiral d None in
    [/\ pge_mul P T = S, pge_mul T S = P, pge_mul S T = P, pge_mul P S = T & pge_mul S P = T] /\
    [/\ pge_mul T T = identity F n d false, pge_mul P P = identity F n d false & pge_mul S S = identity F n d false].
Proof. by eexists; first reflexivity; rewrite /pge_mul /= mulmx1. Qed.
End C80.

(* the mirror x -> -x of the plane, and the mirror with normal (1, 1) that swaps the axes *)
Example C80_mirror_diagonal (F : rcfType) :
  exists2 g : pge F 2 0, mirror (\row_i 1) None None = Ok g &
    forall i j, pR g i j = if i == j then 0 else -1.
Proof.
eexists; first reflexivity; move=> i j /=.
rewrite /reflection /normalize; have -> : norm (\row_(i < 2) (1 : F)) = Num.sqrt 2%:R.
  by rewrite /norm !big_ord_recr big_ord0 /= !mxE expr1n add0r.
rewrite !mxE big_ord1 !mxE mulr1 -expr2 exprVn sqr_sqrtr ?ler0n // mulfV ?pnatr_eq0 //.
by case: eqP => _; rewrite ?mulr1n ?subrr ?mulr0n ?sub0r.
Qed.

Print Assumptions C80_mirror.
Print Assumptions C80_rotation_2d.
Print Assumptions C80_rotation_3d.
Print Assumptions C80_mirror_rotoinversion.
Print Assumptions C80_inversion.
Print Assumptions C80_chiral.
Print Assumptions C80_both_rejected.
