(* C96: the name of a group element tells which element it is.  groups.py 860-1006. *)
From mathcomp Require Import all_ssreflect all_algebra.
From mathcomp Require Import complex.
From Verif Require Import Prelude RingTac LMatrices PGE Spin Factories PropFactories PropHexagonal Printing PropPrinting.
Set Implicit Arguments.
Unset Strict Implicit.
Unset Printing Implicit Defensive.
Import Order.TTheory GRing.Theory Num.Theory.
Local Open Scope ring_scope.

Section Names.
Variable F : rcfType.
Let R := [comRingType of F].
Add Ring Rr : (R_ring R).
Variables (atan2 : F -> F -> F) (cs sn : F -> F) (eigh : forall d, 'M[F]_d -> seq (F * 'rV[F]_d)).
Variables (rnd : F -> F) (pi : F).

(* the two angles that are treated separately: np.arctan2(0, x) is 0 or pi *)
Definition angles_ok :=
  [/\ cs 0 = 1 /\ sn 0 = 0, cs pi = -1 /\ sn pi = 0, forall x, 0 < x -> atan2 0 x = 0 & forall x, x < 0 -> atan2 0 x = pi].
Hypothesis at2 : atan2_ok atan2 cs sn.
Hypothesis eig : eigh_ok eigh.
Hypothesis ang : angles_ok.

Local Notation rname := (@rot_name F).
Local Notation name := (pge_rot_name atan2 eigh rnd pi).
Local Notation raxis := (@round_axis F rnd).

(* What the names mean.  Angles are exact here; axes are rounded for display. *)
Definition turn (t : F) : 'M[F]_2 := \matrix_(i, j) (if i == j then cs t else if i == 0 then - sn t else sn t).
Inductive means : forall d, rname -> 'M[F]_d -> Prop :=
| MIdentity d : means (NIdentity F) (1%:M : 'M_d)
| MInversion d : means (NInversion F) (- 1%:M : 'M_d)
| MTurn t : means (NRotation2 t) (turn t)
| MMirror d (u : 'rV_d) : unitvec u -> means (NMirror (Some (raxis u))) (reflection u)
| MRotation t u : unitvec u -> means (NRotation3 t (Some (raxis u))) (rotation3 (cs t) (sn t) u)
| MRotoinversion t u : unitvec u -> means (NRotoinversion t (Some (raxis u))) (- rotation3 (cs t) (sn t) u).

Lemma orth_det d (M : 'M[F]_d) : M^T *m M = 1%:M -> \det M = 1 \/ \det M = -1.
Proof. by move=> o; have := congr1 determinant o; rewrite det_mulmx det_tr det1 => /eqP; rewrite -expr2 sqrf_eq1 => /orP[]/eqP; [left|right]. Qed.

(* ---- one dimension ---- *)
Theorem C96_one (M : 'M[F]_1) : M^T *m M = 1%:M -> exists2 r, name M = Ok r & means r M.
Proof.
move=> o; rewrite /= /rot_name1; eexists; first by [].
have e : M = (M 0 0)%:M by apply/matrixP => i j; rewrite !ord1 mxE mulr1n.
case: eqP => [m1|m1]; first by rewrite e m1; constructor.
case: (orth_det o); rewrite det_mx11 => // m2.
by have -> : M = - 1%:M; [rewrite e m2 raddfN|constructor].
Qed.

(* ---- two dimensions ---- *)
Lemma det2_adj (M : 'M[F]_2) : M^T *m M = 1%:M -> \det M = 1 -> M 1 1 = M 0 0 /\ M 0 1 = - M 1 0.
Proof.
move=> o d; have ea : \adj M = M^T by rewrite -[LHS]mul1mx -o -mulmxA mul_mx_adj d mulmx1.
have h i j := congr1 (fun X : 'M[F]_2 => X i j) ea.
have := h 0 0; have := h 0 1; rewrite !mxE /cofactor !det_mx11 !mxE /= ?expr0 ?expr1 ?addn0 ?add0n !mul1r !mulN1r.
have l0 : lift 1 0 = 0 :> 'I_2 by apply: val_inj.
have l1 : lift 0 0 = 1 :> 'I_2 by apply: val_inj.
by rewrite ?l0 ?l1 => <- ->; rewrite opprK.
Qed.

Lemma turnE (M : 'M[F]_2) : M^T *m M = 1%:M -> \det M = 1 -> M = turn (atan2 (M 1 0) (M 0 0)).
Proof.
move=> o d; have [e11 e01] := det2_adj o d.
have e1 : M 0 0 ^+ 2 + M 1 0 ^+ 2 = 1 by move: d; rewrite det2 e11 e01 mulNr opprK !expr2.
have [|c s] := @at2 (M 1 0) (M 0 0); first by rewrite e1 oner_eq0.
rewrite e1 sqrtr1 !divr1 in c s.
by apply: PropHexagonal.mat2P; rewrite !mxE /= ?c ?s.
Qed.

Lemma mirror2 (M : 'M[F]_2) (v : 'rV[F]_2) : M^T = M -> \tr M = 0 -> unitvec v -> v *m M = - v -> M = reflection v.
Proof.
move=> sy t0 uv ev.
have s01 : M 0 1 = M 1 0 by rewrite -[in LHS]sy mxE.
have t1 : M 1 1 = - M 0 0 by apply/eqP; rewrite -addr_eq0 addrC -t0 /mxtrace sum2.
have uv' : v 0 0 * v 0 0 + v 0 1 * v 0 1 = 1 by rewrite -uv /dot sum2.
have := congr1 (fun w : 'rV[F]_2 => w 0 0) ev; have := congr1 (fun w : 'rV[F]_2 => w 0 1) ev.
rewrite !mxE !sum2 t1 s01 => e1 e0.
have h00 : M 0 0 = 1 - 2%:R * (v 0 0 * v 0 0).
  transitivity (v 0 0 * (v 0 0 * M 0 0 + v 0 1 * M 1 0) - v 0 1 * (v 0 0 * M 1 0 + v 0 1 * - M 0 0)).
    by rewrite -[LHS]mulr1 -uv'; ringm R.
  have -> : 1 - 2%:R * (v 0 0 * v 0 0) = v 0 0 * v 0 0 + v 0 1 * v 0 1 - 2%:R * (v 0 0 * v 0 0) by rewrite uv'.
  by rewrite e0 e1 -[2%:R]/(1 + 1); move: (v 0 0) (v 0 1) => x y; ringm R.
have h10 : M 1 0 = - (2%:R * (v 0 1 * v 0 0)).
  transitivity (v 0 1 * (v 0 0 * M 0 0 + v 0 1 * M 1 0) + v 0 0 * (v 0 0 * M 1 0 + v 0 1 * - M 0 0)).
    by rewrite -[LHS]mulr1 -uv'; ringm R.
  by rewrite e0 e1 -[2%:R]/(1 + 1); move: (v 0 0) (v 0 1) => x y; ringm R.
apply: PropHexagonal.mat2P; rewrite !(mxE, big_ord1) /= ?mulr1n ?mulr0n ?add0r //.
- by rewrite s01 h10 [v 0 1 * _]mulrC.
- have -> : 1 - 2%:R * (v 0 1 * v 0 1) = v 0 0 * v 0 0 + v 0 1 * v 0 1 - 2%:R * (v 0 1 * v 0 1) by rewrite uv'.
  have -> : M 1 1 = - (v 0 0 * v 0 0 + v 0 1 * v 0 1 - 2%:R * (v 0 0 * v 0 0)) by rewrite t1 h00 uv'.
  by rewrite -[2%:R]/(1 + 1); move: (v 0 0) (v 0 1) => x y; ringm R.
Qed.

Theorem C96_two (M : 'M[F]_2) : M^T *m M = 1%:M -> exists2 r, name M = Ok r & means r M.
Proof.
move=> o; have [[c0 s0] _ _ _] := ang.
have [[q z] /=] := C71_two atan2 eig rnd pi false false o.
rewrite /pretty_print_pge /= /rot_name2; case: (eqVneq (\det M) 1) => [d|d].
  move=> _; eexists; first by [].
  have e := turnE o d; case: eqP => [th|_]; last by rewrite [X in means _ X]e; constructor.
  have -> : M = 1%:M; last by constructor.
  by rewrite e th; apply: PropHexagonal.mat2P; rewrite !mxE /= ?c0 ?s0 ?oppr0.
have [sy t0] := orth2 o d.
case: eqP => // ev _; eexists; first by [].
have [_ ok _ _] := eig M; rewrite lower_sym // in ok.
case el : (eigh M) ev ok => [|[x v] l] //= [-> _] ok.
have [|evv uv] := ok (-1) v; first by left.
by rewrite [X in means _ X](mirror2 sy t0 uv _) ?evv ?scaleN1r //; constructor.
Qed.

Lemma means_identity d (r : rname) (M : 'M[F]_d) : means r M -> r = NIdentity F -> M = 1%:M.
Proof. by case. Qed.
Lemma means_inversion d (r : rname) (M : 'M[F]_d) : means r M -> r = NInversion F -> M = - 1%:M.
Proof. by case. Qed.
Lemma means_turn d (r : rname) (M : 'M[F]_d) t : means r M -> r = NRotation2 t -> exists2 e : d = 2%N, True & castmx (e, e) M = turn t.
Proof. by case=> // t' [->]; exists erefl => //; rewrite castmx_id. Qed.

(* the identity has no other name *)
Theorem C96_identity2 (M : 'M[F]_2) : M^T *m M = 1%:M -> name M = Ok (NIdentity F) <-> M = 1%:M.
Proof.
move=> o; split=> [e|->].
  by have [r] := C96_two o; rewrite e => -[<-] /means_identity; apply.
by have [_ _ a0 _] := ang; rewrite /= /rot_name2 det1 eqxx !mxE /= a0 ?ltr01 ?eqxx.
Qed.

(* ---- three dimensions ---- *)
Lemma one_neq : (1 : F) <> -1.
Proof. by move/eqP; rewrite -subr_eq0 opprK -[1 + 1]/(2%:R) pnatr_eq0. Qed.
Lemma pi_neq0 : pi <> 0.
Proof. by have [[c0 _] [cp _] _ _] := ang; move=> e; apply: one_neq; rewrite -cp e c0. Qed.

Lemma rotation3_half (w : 'rV[F]_3) : unitvec w -> rotation3 (-1) 0 w = - reflection w.
Proof.
move=> uw; rewrite /rotation3 cross_sq // scale0r addr0 opprK -[1 + 1]/(2%:R) /reflection opprB scalerBr.
by rewrite addrCA; congr (_ + _); rewrite -[2%:R]/(1 + 1) scalerDl scale1r opprD addrA subrr add0r.
Qed.

Lemma rotation_found (N : 'M[F]_3) : so3 N -> (N^T = N \/ vsum (axis_of N) <> 0) ->
  exists u, exists2 t, rotation_to_angle atan2 eigh N = Ok (u, t) &
    [/\ forall w, u = Some w -> unitvec w /\ N = rotation3 (cs t) (sn t) w,
        t = 0 <-> N = 1%:M,
        u = None -> exists2 v, unitvec v & v *m N = v /\ vsum v = 0 &
        t = pi <-> N^T = N /\ N <> 1%:M].
Proof.
move=> so h; have [[c0 s0] [cp sp] a0 ap] := ang.
have tN : N^T = N -> exists u, exists2 t, rotation_to_angle atan2 eigh N = Ok (u, t) & t = atan2 0 (\tr N - 1).
  move=> sy; rewrite /rotation_to_angle (sym_axis sy).
  have -> : norm (0 : 'rV[F]_3) = 0 by apply/eqP; rewrite norm_eq0.
  rewrite mul0r eqxx; have [v -> [uv ev]] := eigh_last eig so sy; rewrite eqxx /=.
  by eexists; eexists.
have t1 (t : F) : N = 1%:M -> t = atan2 0 (\tr N - 1) -> t = 0.
  by move=> -> ->; rewrite mxtrace1 a0 // (natrD _ 2 1) addrK ltr0n.
have tp (t : F) : N^T = N -> N <> 1%:M -> t = atan2 0 (\tr N - 1) -> t = pi.
  move=> sy n1 ->; case: (so3_sym_cases so sy) => // ->; rewrite ap //.
  by rewrite -opprD oppr_lt0 -[1 + 1]/(2%:R) ltr0n.
case: (eqVneq (axis_of N) 0) => [n0|n0].
  have sy := so3_sym so n0.
  have [u [t e [h1 h2]]] := C69_symmetric at2 eig so n0.
  have [u' [t' e' et]] := tN sy; move: e'; rewrite e => -[_ ett]; rewrite -ett in et.
  exists u; exists t => //; split=> //.
    split=> [t0|n1]; last exact: t1 et.
    by case: (so3_sym_cases so sy) => // tr; case: pi_neq0; rewrite -t0 et tr ap // -opprD oppr_lt0 -[1 + 1]/(2%:R) ltr0n.
  split=> [tpi|[_ n1]]; last exact: tp et.
  by split=> // n1; apply: pi_neq0; rewrite -tpi; apply: t1 et.
have ns : vsum (axis_of N) != 0 by case: h => [/sym_axis e|/eqP//]; rewrite e eqxx in n0.
have [w [t e [uw eN]]] := C69_recovered eigh at2 so ns.
exists (Some w); exists t => //; split=> //.
- by move=> w' [<-].
- split=> [t0|n1]; first by rewrite eN t0 c0 s0 rotation3_0.
  by move: n0; rewrite n1 sym_axis ?eqxx // trmx1.
- split=> [tpi|[/sym_axis sy _]]; last by rewrite sy eqxx in n0.
  by move: n0; rewrite sym_axis ?eqxx // eN rotation3_tr tpi sp oppr0.
Qed.

(* is the axis a vector of numbers? *)
Definition axis_shown (r : rname) : bool :=
  match r with NMirror _ None | NRotation3 _ None | NRotoinversion _ None => false | _ => true end.

(* Every orthogonal matrix that is symmetric, or whose axis has components that do not add up to zero, gets a name, and the name
   means the matrix.  Not so for other axes: C69_zero_sum_refuted, C69_twofold_refuted. *)
Theorem C96_three (M : 'M[F]_3) : M^T *m M = 1%:M -> (M^T = M \/ vsum (axis_of M) <> 0) ->
  exists2 r, name M = Ok r &
    (axis_shown r -> means r M) /\ (~~ axis_shown r -> exists2 v, unitvec v & v *m M = \det M *: v /\ vsum v = 0).
Proof.
move=> o h; have := so3_or_minus o; rewrite /= /rot_name3; case: (eqVneq (\det M) 1) => [d|d] so.
  have [u [t -> [h1 h2 h3 _]]] := rotation_found so h.
  rewrite d /=; eexists; first by [].
  case: eqP => [t0|t0]; first by split=> // _; rewrite (h2.1 t0); constructor.
  case: u h1 h3 => [w|] h1 h3; split=> //= _.
    by have [uw ->] := h1 _ erefl; constructor.
  by have [v uv [ev sv]] := h3 erefl; exists v => //; rewrite scale1r.
have hm : (- M)^T = - M \/ vsum (axis_of (- M)) <> 0.
  case: h => [sy|n0]; [left; by rewrite linearN /= sy|right].
  have -> : axis_of (- M) = - axis_of M by apply/rowP => i; rewrite !mxE mulmxN raddfN.
  by rewrite /vsum; under eq_bigr do rewrite mxE; rewrite sumrN => /eqP; rewrite oppr_eq0 => /eqP.
have [u [t -> [h1 h2 h3 _]]] := rotation_found so hm.
have [[_ _] [cp sp] _ _] := ang.
have -> : \det M = -1 by case: (orth_det o) => // e; rewrite e eqxx in d.
rewrite /=; eexists; first by [].
have eM : M = - - M by rewrite opprK.
case: eqP => [t0|t0]; first by split=> // _; rewrite eM (h2.1 t0); constructor.
have h4 : u = None -> exists2 v, unitvec v & v *m M = -1 *: v /\ vsum v = 0.
  by move=> /h3[v uv [ev sv]]; exists v => //; split=> //; rewrite scaleN1r -{2}ev mulmxN opprK.
case: eqP => [tpi|tpi]; case: u h1 h3 h4 => [w|] h1 h3 h4; split=> //= _; try exact: h4.
  have [uw e] := h1 _ erefl; rewrite eM e tpi cp sp rotation3_half // opprK; by constructor.
by have [uw e] := h1 _ erefl; rewrite eM e; constructor.
Qed.

Theorem C96_identity3 (M : 'M[F]_3) : M^T *m M = 1%:M -> (M^T = M \/ vsum (axis_of M) <> 0) ->
  (name M = Ok (NIdentity F) <-> M = 1%:M) /\ (name M = Ok (NInversion F) <-> M = - 1%:M).
Proof.
move=> o h; have [r e [hm _]] := C96_three o h; have [_ _ a0 _] := ang.
split; (split; first by move=> en; move: hm; rewrite en in e; case: e => <- /(_ isT) hm;
  first [exact: means_identity hm _|exact: means_inversion hm _]).
  move=> M1; rewrite /= /rot_name3 {1}M1 det1 eqxx.
  have [|u [t -> [_ h2 _ _]]] := @rotation_found M _ h; first by split=> //; rewrite M1 det1.
  by rewrite /= h2.2 // eqxx.
move=> M1; have d : \det M = -1 by rewrite M1 -scaleN1r detZ det1 mulr1 -signr_odd /= expr1.
have n1 : -1 <> 1 :> F by move/esym/one_neq.
have so : so3 (- M) by have := so3_or_minus o; rewrite d; case: eqP.
have hs : (- M)^T = - M by rewrite M1 opprK trmx1.
rewrite /= /rot_name3 d; case: eqP => // _.
have [u [t -> [_ h2 _ _]]] := rotation_found so (or_introl hs).
by rewrite /= h2.2 ?eqxx // M1 opprK.
Qed.

(* a mirror, and only a mirror, is named as one *)
Theorem C96_mirror3 (v : 'rV[F]_3) : unitvec v -> vsum v <> 0 ->
  exists2 u, name (reflection v) = Ok (NMirror (Some (raxis u))) & u = v \/ u = - v.
Proof.
move=> uv sv; set M := reflection v.
have sy : M^T = M by rewrite /M /reflection [LHS]linearB /= linearZ /= trmx1 trmx_mul trmxK.
have o : M^T *m M = 1%:M by rewrite sy reflectionK.
have d : \det M = -1 by exact: reflection_det.
have n1 : -1 <> 1 :> F by move/esym/one_neq.
have so : so3 (- M) by have := so3_or_minus o; rewrite d; case: eqP.
have hs : (- M)^T = - M by rewrite linearN /= sy.
rewrite /= /rot_name3 d; case: eqP => // _.
have [u [t -> [h1 h2 h3 h4]]] := rotation_found so (or_introl hs).
have nM : - M <> 1%:M.
  move=> e; have := congr1 mxtrace e; rewrite mxtrace1 /M /reflection opprB raddfB /= mxtraceZ tr_outer uv mulr1 mxtrace1.
  by move/eqP; rewrite -subr_eq0 -opprB oppr_eq0 opprB -natrB // -natrD pnatr_eq0.
have tp := h4.2 (conj hs nM).
have t0 : t <> 0 by move=> e; apply: pi_neq0; rewrite -tp.
have two : 2%:R != 0 :> F by rewrite pnatr_eq0.
have fix_v w : w *m (- M) = w -> w = dot w v *: v.
  rewrite /M /reflection opprB mulmxBr mulmx1 -scalemxAr mulmxA dotE mul_scalar_mx => e.
  apply: (scalerI two); rewrite -[2%:R]/(1 + 1) !scalerDl !scale1r -{2}e -[_ *: v + _ *: v]mulr2n -scaler_nat addrC.
  by rewrite subrK.
rewrite /=; case: eqP => // _; rewrite tp eqxx.
case: u h1 h3 => [w|] h1 h3 /=; last first.
  have [w uw [ew sw]] := h3 erefl; case: sv.
  have := fix_v w ew => e; move: uw sw; rewrite /unitvec e dotZ uv mulr1 /vsum.
  rewrite (eq_bigr (fun i => dot w v * v 0 i)) => [|i _]; last by rewrite mxE.
  rewrite -mulr_sumr => /eqP q /eqP; rewrite mulf_eq0 => /orP[/eqP z|/eqP//].
  by move: q; rewrite z mul0r eq_sym oner_eq0.
have [uw e] := h1 _ erefl; exists w => //.
have ew : w = dot w v *: v.
  apply: fix_v; have [_ [cp sp] _ _] := ang.
  by rewrite e tp cp sp rotation3_half // /reflection opprB mulmxBr mulmx1 -scalemxAr mulmxA dotE uw mul_scalar_mx scale1r -[2%:R]/(1 + 1) scalerDl scale1r addrK.
move: uw; rewrite /unitvec ew dotZ uv mulr1 => /eqP; rewrite -expr2 sqrf_eq1 => /orP[]/eqP ->; [left|right]; by rewrite ?scale1r ?scaleN1r.
Qed.

(* ---- the short name ---- *)
(* nothing is lost by leaving out the identity *)
Theorem C96_short r a r' a' : short_name r a = short_name r' a' :> option rname * az_name -> r = r' /\ a = a'.
Proof.
pose isid (q : rname) := if q is NIdentity then true else false.
pose none b := if b is ANone then true else false.
have sE q b : short_name q b = (if isid q && ~~ none b then None else Some q, b) by case: q => [||t|d o|t o|t o]; case: b.
have iE q : isid q -> q = NIdentity F by case: q.
rewrite !sE => -[e <-]; split=> //; move: e.
case: ifP => [/andP[/iE -> n]|_]; case: ifP => [/andP[/iE -> _]|_] //.
by move=> -[].
Qed.
Theorem C96_flags conj anti conj' anti' : az_of conj anti = az_of conj' anti' -> conj = conj' /\ anti = anti'.
Proof. by case: conj; case: anti; case: conj'; case: anti'. Qed.

(* proper elements of the plane with the same name are the same *)
Theorem C96_unique2 (M M' : 'M[F]_2) conj anti conj' anti' q : M^T *m M = 1%:M -> M'^T *m M' = 1%:M -> \det M = 1 -> \det M' = 1 ->
  pretty_print_pge atan2 eigh rnd pi M conj anti = Ok q -> pretty_print_pge atan2 eigh rnd pi M' conj' anti' = Ok q ->
  [/\ M = M', conj = conj' & anti = anti'].
Proof.
move=> o o' d d'; have [[c0 s0] _ _ _] := ang; rewrite /pretty_print_pge /= /rot_name2 d d' eqxx /= => -[<-] [/C96_short[er ea]].
have [<- <-] := C96_flags ea; split=> //.
rewrite (turnE o d) (turnE o' d'); congr turn.
move: er; case: eqP => [->|_]; first by case: eqP => // ->.
by case: eqP => // _ [->].
Qed.

(* a quarter turn is named as a turn by the angle with cosine 0 and sine 1, a mirror of the plane as a mirror *)
Example C96_example : exists t, [/\ cs t = 0, sn t = 1 &
  pretty_print_pge atan2 eigh rnd pi (\matrix_(i, j) (if i == j then 0 else if i == 0 then -1 else 1) : 'M[F]_2) true false
    = Ok (Some (NRotation2 t), AT)].
Proof.
set M := (\matrix_(i, j) _ : 'M[F]_2); exists (atan2 1 0).
have [|] := @at2 1 0; first by rewrite expr0n add0r expr1n oner_eq0.
rewrite expr0n add0r expr1n sqrtr1 !divr1 => c s; split=> //.
have d : \det M = 1 by rewrite det2 !mxE /= mulr0 add0r mulN1r opprK.
rewrite /pretty_print_pge /= /rot_name2 d eqxx !mxE /=; case: eqP => //= t0.
by have [[c0 _] _ _ _] := ang; move/eqP: c; rewrite t0 c0 oner_eq0.
Qed.
End Names.

(* The contracts can be met: measure angles by 1 - cos, with the sign of the sine; half a turn is 2. *)
Section Contract.
Variable F : rcfType.
Definition qcs (t : F) : F := 1 - `|t|.
Definition qsn (t : F) : F := (if 0 <= t then 1 else -1) * Num.sqrt (1 - qcs t ^+ 2).
Definition qatan2 (y x : F) : F :=
  let r := Num.sqrt (x ^+ 2 + y ^+ 2) in (if 0 <= y then 1 else -1) * (1 - x / r).
Theorem C96_contract : atan2_ok qatan2 qcs qsn /\ angles_ok qatan2 qcs qsn 2%:R.
Proof.
have q0 (y x : F) : 0 <= x ^+ 2 + y ^+ 2 by rewrite addr_ge0 ?sqr_ge0.
split.
  move=> y x n0; rewrite /qatan2; set r := Num.sqrt _.
  have r0 : 0 < r by rewrite sqrtr_gt0 lt_def n0 q0.
  have rr : r ^+ 2 = x ^+ 2 + y ^+ 2 by rewrite sqr_sqrtr.
  have e1 : (x / r) ^+ 2 + (y / r) ^+ 2 = 1 by rewrite !expr_div_n -mulrDl -rr mulfV // expf_neq0 // gt_eqF.
  have le1 : x / r <= 1.
    rewrite ler_pdivr_mulr // mul1r (le_trans (ler_norm x)) // -sqrtr_sqr ler_wsqrtr //.
    by rewrite ler_addl sqr_ge0.
  have [y0|y0] := leP 0 y.
    have c : qcs (1 * (1 - x / r)) = x / r by rewrite /qcs mul1r ger0_norm ?subr_ge0 // opprB addrCA subrr addr0.
    rewrite /qsn c; split=> //; rewrite mul1r subr_ge0 le1 mul1r -e1 addrAC subrr add0r sqrtr_sqr ger0_norm //.
    by rewrite divr_ge0 // ltW.
  have lt1 : x / r < 1.
    rewrite lt_def le1 andbT; apply/negP => /eqP e; move/eqP: e1; rewrite -e expr1n addrC -subr_eq0 addrK sqrf_eq0.
    by rewrite mulf_eq0 invr_eq0 (lt_eqF y0) (gt_eqF r0).
  have c : qcs (-1 * (1 - x / r)) = x / r.
    by rewrite /qcs mulN1r normrN ger0_norm ?subr_ge0 // opprB addrCA subrr addr0.
  rewrite /qsn c; split=> //; rewrite mulN1r oppr_ge0 leNgt subr_gt0 lt1 /=.
  have -> : 1 - (x / r) ^+ 2 = (y / r) ^+ 2 by rewrite -[X in X - _]e1 addrAC subrr add0r.
  rewrite sqrtr_sqr ltr0_norm ?mulN1r ?opprK //.
  by rewrite pmulr_llt0 ?invr_gt0.
rewrite /qsn /qcs /qatan2; split.
- by rewrite normr0 subr0 expr1n subrr sqrtr0 mulr0.
- have -> : 1 - `|2%:R| = -1 :> F by rewrite ger0_norm ?ler0n // -[2%:R]/(1 + 1) opprD addrA subrr add0r.
  by rewrite sqrrN expr1n subrr sqrtr0 mulr0.
- by move=> x x0; rewrite lexx expr0n addr0 sqrtr_sqr gtr0_norm // mulfV ?subrr ?mulr0 ?gt_eqF.
- by move=> x x0; rewrite lexx expr0n addr0 sqrtr_sqr ltr0_norm // invrN mulrN mulfV ?lt_eqF // opprK mul1r.
Qed.
End Contract.

(* la.eigh of real matrices *)
From Verif Require Import LinSpan Star Nullspace SymBlocks Oracles PropOracles.
Section Eigh.
Variable F : rcfType.
Local Notation rst := (real_star F).

Lemma real_eigenvector n (S : 'M[F]_n.+1) : S^T = S -> exists a, exists2 v : 'cV[F]_n.+1, norm2 rst v = 1 & S *m v = a *: v.
Proof.
move=> sy; pose f := [rmorphism of real_complex F]; pose H := map_mx f S.
have dH : dag H = H.
  by apply/matrixP => i j; rewrite !mxE -[in RHS]sy [in RHS]mxE; exact: conjc_real.
have [lam [V [uV _ _ E]]] := eigh_exists dH.
have sH : H^T = H by rewrite /H map_trmx sy.
have Ev : H *m col 0 V = f lam`_0 *: col 0 V.
  have -> : H *m col 0 V = col 0 (H *m V) by rewrite !colE mulmxA.
  by rewrite E; apply/colP => i; rewrite [LHS]mxE mul_mx_diag !mxE mulrC.
have v0 : col 0 V != 0.
  apply/negP => /eqP z; have := unitaryC uV; move/matrixP => /(_ 0 0); rewrite !mxE big1 => [/eqP|i _].
    by rewrite eq_sym oner_eq0.
  by move/colP: z => /(_ i); rewrite !mxE => ->; rewrite mulr0.
have : eigenvalue H (f lam`_0).
  apply/eigenvalueP; exists (col 0 V)^T; last by rewrite -(inj_eq (@trmx_inj _ _ _)) trmxK trmx0.
  by rewrite -{1}sH -trmx_mul Ev linearZ.
rewrite eigenvalue_root_char -map_char_poly fmorph_root -eigenvalue_root_char => /eigenvalueP [w Ew w0].
have w0' : w^T != 0 by rewrite -(inj_eq (@trmx_inj _ _ _)) trmxK trmx0.
exists lam`_0, ((emb rst (Num.sqrt (norm2 rst w^T))^-1) *: w^T); first exact: Oracles.normalize.
by rewrite -scalemxAr -{1}sy -trmx_mul Ew linearZ /= !scalerA mulrC.
Qed.

Lemma adj_real m n (A : 'M[F]_(m, n)) : adj rst A = A^T.
Proof. by apply/matrixP => i j; rewrite !mxE. Qed.

Lemma real_spectral n (S : 'M[F]_n) : S^T = S -> exists2 U : 'M[F]_n, Star.unitary rst U & exists l : 'rV[F]_n, S *m U = U *m diag_mx l.
Proof.
elim: n S => [|n IH] S sy.
  by exists 1%:M; [exact: unitary1|exists 0; apply/matrixP; case].
have [a [v nv Sv]] := real_eigenvector sy; have [U uU E] := completion nv.
pose B : 'M[F]_(1 + n) := U^T *m S *m U.
have symB : B^T = B by rewrite /B !trmx_mul trmxK sy mulmxA.
have UU : U^T *m U = 1%:M by rewrite -adj_real; exact: unitaryC.
have UU' : U *m U^T = 1%:M by rewrite -adj_real.
have cB : col 0 B = a *: delta_mx 0 0.
  by rewrite colE -!mulmxA -colE E Sv -E -scalemxAr colE [U^T *m _]mulmxA UU mul1mx.
have rB : row 0 B = a *: delta_mx 0 0 by rewrite -[B]symB -tr_col cB linearZ /= trmx_delta.
have EB := first_block cB rB.
have symD : (drsubmx B)^T = drsubmx B by rewrite -{2}symB trmx_drsub.
have [Q uQ [l EQ]] := IH _ symD.
exists (U *m corner Q); first exact: (unitary_mul uU (unitary_corner uQ)).
exists (row_mx a%:M l).
have -> : S *m (U *m corner Q) = U *m (B *m corner Q) by rewrite !mulmxA UU' mul1mx.
rewrite -[RHS]mulmxA; congr (_ *m _).
have dE : diag_mx (row_mx a%:M l : 'rV[F]_(1 + n)) = block_mx (diag_mx a%:M) 0 0 (diag_mx l) by exact: diag_mx_row.
have h : corner Q *m block_mx (diag_mx a%:M) 0 0 (diag_mx l) = block_mx (diag_mx a%:M) 0 0 (Q *m diag_mx l).
  by rewrite /corner mulmx_block !mulmx0 !mul0mx !addr0 !add0r mul1mx.
rewrite [diag_mx _]dE; apply: etrans (esym h).
rewrite EB /corner mulmx_block !mulmx0 !mul0mx !addr0 !add0r EQ mulmx1.
by congr block_mx; apply/matrixP => i j; rewrite !ord1 !mxE.
Qed.

Theorem C96_eigh : exists eigh : forall d, 'M[F]_d -> seq (F * 'rV[F]_d), eigh_ok eigh.
Proof.
pose good d (S : 'M[F]_d) (b : seq F * 'M[F]_d) :=
  [&& b.2 *m b.2^T == 1%:M, size b.1 == d, sorted <=%R b.1 & lower S *m b.2 == b.2 *m diag_mx (\row_i b.1`_i)].
have [f P] : exists f : forall d, 'M[F]_d -> seq F * 'M[F]_d, forall d (S : 'M[F]_d), good d S (f d S).
  apply: (@fun_of (fun d => 'M[F]_d) (fun d => [choiceType of seq F * 'M[F]_d]) good) => d S.
  have sy : (lower S)^T = lower S.
    by apply/matrixP => i j; rewrite !mxE; case: (ltngtP i j) => // /val_inj ->.
  have [U uU [l E]] := real_spectral sy.
  have [|lam [V [uV sz so EV]]] := @sorted_eigh _ _ rst _ (lower S) U l uU; first by rewrite E; congr (_ *m diag_mx _); apply/rowP => i; rewrite mxE.
  by exists (lam, V); rewrite /good /= sz so eqxx -adj_real uV EV !eqxx.
exists (fun d S => [seq ((f d S).1`_(val i), (col i (f d S).2)^T) | i <- enum 'I_d]) => d S.
have := P d S; rewrite /good; case: (f d S) => lam V /= /and4P[/eqP uV /eqP sz so /eqP E].
have sy : (lower S)^T = lower S.
  by apply/matrixP => i j; rewrite !mxE; case: (ltngtP i j) => // /val_inj ->.
have mE : [seq lam`_(val i) | i <- enum 'I_d] = lam.
  by rewrite map_comp val_enum_ord -sz -/(mkseq _ _) mkseq_nth.
split.
- by rewrite size_map size_enum_ord.
- move=> x v /List.in_map_iff[i [[<- <-] _]]; split.
    rewrite -{1}sy -trmx_mul -linearZ /=; congr trmx; have -> : lower S *m col i V = col i (lower S *m V) by rewrite !colE mulmxA.
    rewrite E.
    by apply/colP => k; rewrite [LHS]mxE mul_mx_diag !mxE mulrC.
  have := mulmx1C uV; move/matrixP => /(_ i i); rewrite !mxE eqxx => e; rewrite /unitvec -[RHS]e.
  by apply: eq_bigr => k _; rewrite !mxE.
- by rewrite -map_comp /comp /= mE.
- move=> x v v0 ev; rewrite -map_comp /comp /= mE.
  have w0 : v *m V != 0 by apply: contraNneq v0 => z; rewrite -[v]mulmx1 -uV mulmxA z mul0mx.
  have Ew : v *m V *m diag_mx (\row_i lam`_i) = x *: (v *m V) by rewrite -mulmxA -E mulmxA ev scalemxAl.
  case/matrix0Pn: w0 => i0 [k]; rewrite ord1 => wi.
  move/rowP: Ew => /(_ k); rewrite mul_mx_diag [LHS]mxE [in RHS]mxE [(\row__ _) _ _]mxE [RHS]mulrC => /(mulfI wi) <-.
  by rewrite mem_nth // sz.
Qed.
End Eigh.
