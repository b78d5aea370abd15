(* C46 for the hexagonal groups. *)
From mathcomp Require Import all_ssreflect all_algebra.
From mathcomp Require Import complex.
From Verif Require Import Prelude RingTac PySet GroupGen GroupGenProofs PGE PGEProofs PGEGroup GroupSpec.
From Verif Require Import Spin Factories PropFactories PointGroups PropPointGroups.

Set Implicit Arguments.
Unset Strict Implicit.
Unset Printing Implicit Defensive.
Import Order.TTheory GRing.Theory Num.Theory.
Local Open Scope ring_scope.

(* ---- the dihedral group of order 12 as pairs: A^k M^e ---- *)
Definition dih := (nat * bool)%type.
Definition dmul (x y : dih) : dih := ((x.1 + (if x.2 then 6 - y.1 else y.1)) %% 6, x.2 (+) y.2)%N.
Definition dihs : seq dih := [seq (k, e) | k <- iota 0 6, e <- [:: false; true]].
Definition dmul3 (x y : dih * bool) : dih * bool := (dmul x.1 y.1, x.2 (+) y.2).
Definition dihs3 : seq (dih * bool) := [seq (x, e) | x <- dihs, e <- [:: false; true]].

(* the generators: Mx = M, C6 = A or its inverse *)
Lemma hex2_rep (b : bool) : rep_ok dmul dihs [:: (0, true); (if b then 5 else 1, false)]%N (0, false)%N 6.
Proof. by case: b; vm_compute. Qed.
Lemma hex3_rep (b : bool) :
  rep_ok dmul3 dihs3 [:: ((3, false), true); ((3, true), true); ((if b then 5 else 1, false), false)]%N ((0, false), false)%N 8.
Proof. by case: b; vm_compute. Qed.

Section Hex.
Variable F : rcfType.
Let R := [comRingType of F].
Add Ring Rr : (R_ring R).
Let n2 : 2%:R != 0 :> F. Proof. by rewrite pnatr_eq0. Qed.

(* a sixfold rotation and a mirror *)
Definition A6 : 'M[F]_2 := rotation2 2%:R^-1 (s3 F / 2%:R).
Definition M2 : 'M[F]_2 := \matrix_(i, j) nth 0 (nth [::] [:: [:: -1; 0]; [:: 0; 1]] i) j.

Lemma mat2P (X Y : 'M[F]_2) : X 0 0 = Y 0 0 -> X 0 1 = Y 0 1 -> X 1 0 = Y 1 0 -> X 1 1 = Y 1 1 -> X = Y.
Proof.
have o (i : 'I_2) : i = 0 \/ i = 1 by case: i => [[|[|]]] // p; [left|right]; apply: val_inj.
by move=> a b c e; apply/matrixP => i j; case: (o i) => ->; case: (o j) => ->.
Qed.

Lemma sum2 (f : 'I_2 -> F) : \sum_i f i = f 0 + f 1.
Proof. by rewrite !big_ord_recr big_ord0 /= add0r; do ![congr (_ + _)]; congr f; apply: val_inj. Qed.

Lemma quarter : 2%:R^-1 * 2%:R^-1 = 4%:R^-1 :> F.
Proof. by rewrite -invfM -natrM. Qed.
Lemma h2 : s3 F / 2%:R * (s3 F / 2%:R) = 3%:R / 4%:R.
Proof. by rewrite mulrACA s3_sq quarter. Qed.
Let half2 : 2%:R^-1 + 2%:R^-1 = 1 :> F.
Proof. by rewrite -mulr2n -[LHS]mulr_natr mulVf. Qed.
Let q2 : 4%:R^-1 - 3%:R / 4%:R = - 2%:R^-1 :> F.
Proof.
rewrite -{1}[4%:R^-1]mul1r -mulrBl -(opprB 3%:R) -(natrB _ (n := 1)) // mulNr; congr (- _).
by rewrite -[4%N]/(2 * 2)%N natrM invfM mulrA divff ?mul1r.
Qed.
Let q1 : 4%:R^-1 + 3%:R / 4%:R = 1 :> F.
Proof. by rewrite -{1}[4%:R^-1]mul1r -mulrDl -(natrD _ 1 3) divff ?pnatr_eq0. Qed.

Lemma A6_2 : A6 *m A6 = rotation2 (- 2%:R^-1) (s3 F / 2%:R).
Proof.
rewrite /A6 rotation2_mul h2 quarter q2; congr rotation2.
by rewrite mulrC -mulrDl half2 mul1r.
Qed.
Lemma A6_3 : A6 *m A6 *m A6 = - 1%:M.
Proof.
rewrite A6_2 /A6 rotation2_mul h2 mulNr quarter -opprD q1 (mulrC (s3 F / _)) mulNr addrN.
by apply: mat2P; rewrite !mxE /= ?mulr1n ?mulr0n ?oppr0.
Qed.
Lemma A6_exp3 : A6 ^+ 3 = - 1.
Proof. by rewrite !exprS expr0 mulr1 mulrA -!mulmxE A6_3. Qed.
Lemma A6_exp6 : A6 ^+ 6 = 1.
Proof. by rewrite (exprM A6 3 2) A6_exp3 sqrrN expr1n. Qed.
Lemma M2_sq : M2 * M2 = 1.
Proof. by rewrite -mulmxE; apply: mat2P; rewrite !mxE !big_ord_recr big_ord0 /= !mxE /= ?(mulr1, mulr0, mul0r, mulrNN, add0r, addr0). Qed.

(* M A = A^-1 M *)
Lemma M2A6 : A6 * M2 * A6 = M2.
Proof.
rewrite -!mulmxE /A6; have e1 : 2%:R^-1 * 2%:R^-1 + s3 F / 2%:R * (s3 F / 2%:R) = 1 by rewrite h2 quarter q1.
move: (s3 F / 2%:R) 2%:R^-1 e1 => h q e1.
by apply: mat2P; rewrite !(mxE, sum2) /= ?(mulr0, mul0r, mulrN1, mulr1, add0r, addr0) -?e1; ringm R.
Qed.

Lemma A6_mod m : A6 ^+ (m %% 6) = A6 ^+ m.
Proof. by rewrite {2}(divn_eq m 6) exprD mulnC exprM A6_exp6 expr1n mul1r. Qed.

Lemma M2A6l l : A6 ^+ l * M2 * A6 ^+ l = M2.
Proof.
elim: l => [|l IH]; first by rewrite expr0 mul1r mulr1.
have -> : A6 ^+ l.+1 * M2 * A6 ^+ l.+1 = A6 ^+ l * (A6 * M2 * A6) * A6 ^+ l.
  by rewrite {1}exprSr exprS !mulrA.
by rewrite M2A6.
Qed.
Lemma M2_swap l : (l <= 6)%N -> M2 * A6 ^+ l = A6 ^+ (6 - l) * M2.
Proof. by move=> l6; rewrite -{2}(M2A6l l) !mulrA -exprD subnK // A6_exp6 mul1r. Qed.

Definition dmx (x : dih) : 'M[F]_2 := A6 ^+ x.1 * M2 ^+ x.2.

Lemma dihsP x : x \in dihs -> (x.1 < 6)%N.
Proof. by case/allpairsP => -[k e] /= [kk _ ->] /=; have := mem_iota 0 6 k; rewrite [_ \in _]kk. Qed.

Lemma dmxM x y : x \in dihs -> y \in dihs -> dmx (dmul x y) = dmx x *m dmx y.
Proof.
case: x y => [k e] [l f] /dihsP /= k6 /dihsP /= l6; rewrite /dmx /= A6_mod mulmxE exprD.
case: e => /=; last by rewrite expr0 mulr1 !mulrA.
rewrite expr1 -!mulrA; congr (_ * _); rewrite !mulrA (M2_swap (ltnW l6)) -!mulrA; congr (_ * _).
by case: f; rewrite /= ?expr0 ?expr1 ?mulr1 ?M2_sq.
Qed.

Lemma det_A6 : \det A6 = 1.
Proof. by apply: (rotation2_orth _).2; rewrite !expr2 quarter h2 q1. Qed.
Lemma det_M2 : \det M2 = -1.
Proof.
rewrite (expand_det_row _ 0) sum2 /cofactor !det_mx11 !mxE /= !mul0r addr0 add0n expr0 mul1r.
by rewrite mulr1.
Qed.
Lemma det_exp k : \det (A6 ^+ k) = 1.
Proof. by elim: k => [|k IH]; rewrite ?det1 // exprS -mulmxE det_mulmx det_A6 mul1r. Qed.

Lemma A6_inj k l : (k < 6)%N -> (l < 6)%N -> A6 ^+ k = A6 ^+ l -> k = l.
Proof.
wlog kl : k l / (k <= l)%N => [W k6 l6 E|k6 l6 E].
  by case/orP: (leq_total k l) => h; [|apply/esym]; apply: W.
have E1 : A6 ^+ (l - k) = 1.
  have u : A6 ^+ k * A6 ^+ (6 - k) = 1 by rewrite -exprD subnKC ?A6_exp6 // ltnW.
  have := congr1 (fun X => X * A6 ^+ (6 - k)) E; rewrite u -(subnKC kl) exprD -mulrA.
  by rewrite -exprD addnC exprD mulrA u mul1r addKn.
have n2' : A6 ^+ 2 != 1.
  rewrite expr2 -mulmxE A6_2; apply/eqP => /matrixP /(_ 0 0); rewrite !mxE /= mulr1n => e.
  by have := ltr0Sn F 1; rewrite -invr_gt0 -oppr_lt0 e ltNge ler01.
have n3' : A6 ^+ 3 != 1.
  rewrite A6_exp3; apply/eqP => /matrixP /(_ 0 0); rewrite !mxE /= mulr1n => e.
  by have := @ltr01 F; rewrite -oppr_lt0 e ltNge ler01.
apply/eqP; rewrite eqn_leq kl /= -subn_eq0.
have : (l - k < 6)%N by apply: leq_ltn_trans l6; apply: leq_subr.
case: (l - k)%N E1 => [//|[|[|[|[|[|]]]]]] // E1 _.
- by move: n2'; rewrite expr2 -[A6]expr1 E1 mulr1 eqxx.
- by move: n2'; rewrite E1 eqxx.
- by move: n3'; rewrite E1 eqxx.
- by have := A6_exp6; rewrite (exprD A6 4 2) E1 mul1r => e; rewrite e eqxx in n2'.
- have e : A6 = 1 by rewrite -[LHS]mul1r -E1 -exprSr A6_exp6.
  by case/eqP: n2'; rewrite e expr1n.
Qed.

Lemma dmxI : {in dihs &, injective dmx}.
Proof.
move=> [k e] [l f] /dihsP /= k6 /dihsP /= l6 E.
have ef : e = f.
  have d1 : \det (1 : 'M[F]_2) = 1 by exact: det1.
  have m1 : (-1 : F) <> 1 by move=> e1; have := @ltr01 F; rewrite -oppr_lt0 e1 ltNge ler01.
  have := congr1 determinant E; rewrite /dmx -!mulmxE !det_mulmx !det_exp !mul1r /=.
  by case: (e); case: (f); rewrite /= ?expr1 ?expr0 ?det_M2 ?d1 => // /esym.
rewrite -ef in E *; congr pair; apply: A6_inj => //.
have := congr1 (fun X => X * M2 ^+ e) E; rewrite /dmx /= -!mulrA.
by case: (e); rewrite ?expr1 ?expr0 ?mulr1 ?M2_sq ?mulr1.
Qed.
Lemma dmx1 : dmx (0%N, false) = 1%:M.
Proof. by rewrite /dmx /= !expr0 mulr1. Qed.

(* ---- the symmetries of the regular hexagon ---- *)
Definition vert (p : F * F) : 'cV[F]_2 := \col_i nth 0 [:: p.1; p.2] i.
Definition hexagon : seq 'cV[F]_2 :=
  let h := s3 F / 2%:R in
  map vert [:: (1, 0); (2%:R^-1, h); (- 2%:R^-1, h); (-1, 0); (- 2%:R^-1, - h); (2%:R^-1, - h)].
Definition hexagon_symmetry (X : 'M[F]_2) : Prop :=
  X *m X^T = 1%:M /\ forall v, v \in hexagon -> X *m v \in hexagon.

Let e1 := vert (1, 0).
Lemma rot_e1 c s : rotation2 c s *m e1 = vert (c, s).
Proof. by apply/matrixP => i j; rewrite ord1 !(mxE, sum2); case: i => [[|[|]]] //= p; rewrite ?mxE /= ?(mulr0, mulr1, addr0). Qed.
Lemma vertN p : - vert p = vert (- p.1, - p.2).
Proof. by apply/matrixP => i j; rewrite ord1 !mxE; case: i => [[|[|]]]. Qed.
Lemma hexagonE : hexagon = [seq A6 ^+ k *m e1 | k <- iota 0 6].
Proof.
have e0 : A6 ^+ 0 *m e1 = vert (1, 0) by rewrite expr0 mul1mx.
have e1' : A6 ^+ 1 *m e1 = vert (2%:R^-1, s3 F / 2%:R) by rewrite expr1 rot_e1.
have e2 : A6 ^+ 2 *m e1 = vert (- 2%:R^-1, s3 F / 2%:R) by rewrite expr2 -mulmxE A6_2 rot_e1.
have e3 k : A6 ^+ (3 + k) *m e1 = - (A6 ^+ k *m e1) by rewrite exprD A6_exp3 mulN1r mulNmx.
have := e3 0%N; have := e3 1%N; have := e3 2%N; rewrite e0 e1' e2 !vertN /= oppr0 opprK => e5 e4 e3'.
by rewrite /hexagon /= -[A6 ^+ 3]/(A6 ^+ (3 + 0)) -[A6 ^+ 4]/(A6 ^+ (3 + 1)) -[A6 ^+ 5]/(A6 ^+ (3 + 2)) e0 e1' e2 e3' e4 e5.
Qed.
Lemma hexagon_mem k : A6 ^+ k *m e1 \in hexagon.
Proof. by rewrite hexagonE -A6_mod; apply/mapP; exists (k %% 6)%N => //; rewrite mem_iota ltn_mod. Qed.

Lemma A6_orth k : A6 ^+ k *m (A6 ^+ k)^T = 1%:M.
Proof.
elim: k => [|k IH]; first by rewrite expr0 trmx1 mulmx1.
rewrite exprS -mulmxE trmx_mul mulmxA -(mulmxA A6) IH mulmx1.
by apply: (rotation2_orth _).1; rewrite !expr2 quarter h2 q1.
Qed.
Lemma M2_e1 : M2 *m e1 = A6 ^+ 3 *m e1.
Proof.
rewrite A6_exp3 mulNmx mul1mx; apply/matrixP => i j; rewrite ord1 !(mxE, sum2).
by case: i => [[|[|]]] //= p; rewrite ?(mulr0, mulr1, mul0r, addr0, oppr0).
Qed.
Lemma M2T : M2^T = M2.
Proof. by apply: mat2P; rewrite !mxE. Qed.

Lemma dmx_mem k e : dmx (k, e) \in map dmx dihs.
Proof.
have -> : dmx (k, e) = dmx ((k %% 6)%N, e) by rewrite /dmx /= A6_mod.
apply/mapP; exists ((k %% 6)%N, e) => //; apply/allpairsP; exists ((k %% 6)%N, e) => /=.
by split=> //; [rewrite (mem_iota 0 6) /= ltn_mod|case: e].
Qed.

Theorem hexagon_symmetryP X : X \in map dmx dihs <-> hexagon_symmetry X.
Proof.
split.
- case/mapP=> -[k e] /dihsP /= k6 ->; split.
    rewrite /dmx /= -mulmxE trmx_mul mulmxA -(mulmxA (A6 ^+ k)).
    suff -> : M2 ^+ e *m (M2 ^+ e)^T = 1%:M by rewrite mulmx1 A6_orth.
    by case: e; rewrite /= ?expr0 ?expr1 ?trmx1 ?mulmx1 // M2T mulmxE M2_sq.
  move=> v; rewrite {1}hexagonE => /mapP [l]; rewrite (mem_iota 0 6) /= => l6 ->.
  rewrite /dmx /= -mulmxE; case: e; rewrite /= ?expr0 ?expr1 ?mulmx1.
    rewrite -(mulmxA (A6 ^+ k)) (mulmxA M2) mulmxE M2_swap ?(ltnW l6) // -mulmxE -(mulmxA _ M2) M2_e1.
    by rewrite (mulmxA (A6 ^+ (6 - l)) (A6 ^+ 3)) (mulmxA (A6 ^+ k)) !mulmxE -!exprD hexagon_mem.
  by rewrite mulmxA mulmxE -exprD hexagon_mem.
- case=> oX /(_ e1); rewrite (_ : e1 \in hexagon) => [/(_ isT)|]; last by have := hexagon_mem 0; rewrite expr0 mul1mx.
  rewrite hexagonE => /mapP [k]; rewrite (mem_iota 0 6) /= => k6 Xe.
  pose Y := A6 ^+ (6 - k) *m X.
  have XE : X = A6 ^+ k *m Y by rewrite /Y mulmxA mulmxE -exprD subnKC ?A6_exp6 ?mul1r // ltnW.
  have Ye : Y *m e1 = e1 by rewrite /Y -mulmxA Xe mulmxA mulmxE -exprD subnK ?A6_exp6 ?mul1mx // ltnW.
  have oY : Y *m Y^T = 1%:M by rewrite /Y trmx_mul mulmxA -(mulmxA _ X) oX mulmx1 A6_orth.
  clearbody Y.
  have y00 : Y 0 0 = 1.
    by have := congr1 (fun v : 'cV[F]_2 => v 0 0) Ye; rewrite !(mxE, sum2) /= mulr1 mulr0 addr0.
  have y10 : Y 1 0 = 0.
    by have := congr1 (fun v : 'cV[F]_2 => v 1 0) Ye; rewrite !(mxE, sum2) /= mulr1 mulr0 addr0.
  have y01 : Y 0 1 = 0.
    have := congr1 (fun M : 'M[F]_2 => M 0 0) oY; rewrite !(mxE, sum2) /= y00 mulr1 mulr1n => /eqP.
    by rewrite -subr_eq0 addrC addKr mulf_eq0 orbb => /eqP.
  have : Y 1 1 ^+ 2 == 1.
    have := congr1 (fun M : 'M[F]_2 => M 1 1) oY; rewrite !(mxE, sum2) /= y10 mulr0 add0r mulr1n => e.
    by rewrite expr2 e.
  rewrite sqrf_eq1 => /orP[] /eqP y11.
    have -> : X = dmx (k, false); last exact: dmx_mem.
    rewrite XE /dmx /= expr0 mulr1 -[RHS]mulmx1; congr (_ *m _).
    by apply: mat2P; rewrite ?y00 ?y01 ?y10 ?y11 !mxE.
  have -> : X = dmx ((k + 3)%N, true); last exact: dmx_mem.
  rewrite XE /dmx /= expr1 exprD A6_exp3 mulrN1 mulNr -mulrN -mulmxE; congr (_ *m _).
  by apply: mat2P; rewrite ?y00 ?y01 ?y10 ?y11 !mxE ?opprK ?oppr0.
Qed.

(* ---- three dimensions ---- *)
Definition emb (X : 'M[F]_2) (z : bool) : 'M[F]_3 :=
  \matrix_(i, j) nth 0 (nth [::] [:: [:: X 0 0; X 0 1; 0]; [:: X 1 0; X 1 1; 0]; [:: 0; 0; (-1) ^+ z]] i) j.
Definition dmx3 (x : dih * bool) : 'M[F]_3 := emb (dmx x.1) x.2.

Lemma embM X Y z w : emb (X *m Y) (z (+) w) = emb X z *m emb Y w.
Proof.
by apply: mat3P; split; rewrite !(mxE, sum3, sum2) /= ?(mulr0, mul0r, addr0, add0r) // signr_addb.
Qed.
Lemma embI X Y z w : emb X z = emb Y w -> X = Y /\ z = w.
Proof.
move=> E; have e i j := congr1 (fun M : 'M[F]_3 => M i j) E.
split; last by have := e 2 2; rewrite !mxE /= => /signr_inj.
by apply: mat2P; [have := e 0 0|have := e 0 1|have := e 1 0|have := e 1 1]; rewrite !mxE.
Qed.
Lemma dihs3P x : x \in dihs3 -> x.1 \in dihs.
Proof. by case/allpairsP => -[y e] /= [yd _ ->]. Qed.
Lemma dmx3M x y : x \in dihs3 -> y \in dihs3 -> dmx3 (dmul3 x y) = dmx3 x *m dmx3 y.
Proof. by move=> /dihs3P xd /dihs3P yd; rewrite /dmx3 /= dmxM // embM. Qed.
Lemma dmx3I : {in dihs3 &, injective dmx3}.
Proof.
move=> [x z] [y w] /dihs3P xd /dihs3P yd /embI /= [/dmxI e ->].
by rewrite (e xd yd).
Qed.
Lemma dmx31 : dmx3 ((0%N, false), false) = 1%:M.
Proof. by rewrite /dmx3 /= dmx1; apply: mat3P; split; rewrite !mxE. Qed.

Lemma hexagon3P R3 : R3 \in map dmx3 dihs3 <-> exists X z, hexagon_symmetry X /\ R3 = emb X z.
Proof.
split=> [/mapP [[x z] /dihs3P xd ->]|[X [z [/hexagon_symmetryP /mapP [x xd ->] ->]]]].
  by exists (dmx x), z; split=> //; apply/hexagon_symmetryP; apply: map_f.
apply/mapP; exists (x, z) => //; apply/allpairsP; exists (x, z) => /=; split=> //.
by case: z.
Qed.
End Hex.

Section C46.
Variables (F : rcfType) (n : nat) (cs sn : F -> F).
Variables (ord : forall d, seq (pge F d n) -> seq (pge F d n)) (fuel : nat).
Hypothesis o : forall d, enumeration (@ord d).
Hypothesis trig : trig_table cs sn.
Implicit Types (tr ph sympy_R : bool) (spin : option (spin_rep F n)).
Local Notation no_U G := (forall g, List.In g G -> pU g = None).

Lemma A6_5 : A6 F ^+ 5 = rotation2 2%:R^-1 (- (s3 F / 2%:R)).
Proof.
rewrite -[5%N]/(3 + 2)%N exprD A6_exp3 mulN1r expr2 -mulmxE A6_2.
by apply: mat2P; rewrite !mxE /= ?opprK.
Qed.
Lemma sympy_A6 : sympy_R6 F = dmx F (5%N, false).
Proof. by rewrite /dmx /= expr0 mulr1 A6_5; apply: mat2P; rewrite !mxE /= ?opprK. Qed.

Theorem C46_hexagonal2 tr ph sympy_R spin : (48 < fuel)%N ->
  exists2 G, hexagonal2 cs sn ord fuel tr ph false sympy_R spin = Some (Ok G) &
    point_group tr ph (@hexagon_symmetry F) 12 G /\ (spin = None -> no_U G).
Proof.
move=> fu; have [U [EM UN]] := mirror_x spin.
have -> : hexagonal2 cs sn ord fuel tr ph false sympy_R spin = finish_group ord fuel false (hexagonal2_gens cs sn tr ph sympy_R spin) by [].
have {}EM : mirror (\row_i nth 0 [:: 1; 0] i) None spin = Ok (Pge (dmx F (0%N, true)) false false U false).
  rewrite EM; congr (Ok (Pge _ _ _ _ _)); rewrite /dmx /= expr0 mul1r expr1.
  by apply: mat2P; rewrite !mxE.
have [_ _ _ [c6 s6]] := trig.
have [V [EC VN]] : exists V, (if sympy_R then Ok (Pge (sympy_R6 F) false false (U6 sympy_R spin) false)
    else rotation_2d cs sn 6%:R^-1 None spin) =
    Ok (Pge (dmx F (if sympy_R then 5 else 1, false)%N) false false V false) /\ (spin = None -> V = None).
  case: (sympy_R) => /=; first by rewrite sympy_A6; eexists; split; [reflexivity|move=> ->].
  rewrite /rotation_2d c6 s6 -/(A6 F) (_ : A6 F = dmx F (1%N, false)); last by rewrite /dmx /= expr1 expr0 mulr1.
  by case: (spin) => [s|] /=; eexists; split.
rewrite /hexagonal2_gens EM /= EC /=.
have := repP (hex2_rep sympy_R) (@dmxM F) (@dmxI F) (dmx1 F); rewrite (_ : size dihs = 12%N) // => rp.
set gens := [:: _; _].
have [||||G EG [PG UG]] := @finish_rep F n ord fuel o 2 tr ph spin gens _ _ 12 rp.
- exact: erefl.
- by move=> g [<-|[<-|]].
- by move=> sp g [<-|[<-|]] //=; [apply: UN|apply: VN].
- by [].
exists G => //; split=> //; exact: group_ext (@hexagon_symmetryP F) PG.
Qed.

(* the symmetries of a hexagonal prism *)
Definition prism_symmetry (R : 'M[F]_3) := exists X z, hexagon_symmetry X /\ R = emb X z.

Theorem C46_hexagonal3 tr ph sympy_R spin : (96 < fuel)%N ->
  exists2 G, hexagonal3 cs sn ord fuel tr ph false sympy_R spin = Some (Ok G) &
    point_group tr ph prism_symmetry 24 G /\ (spin = None -> no_U G).
Proof.
move=> fu; have [_ _ [c2 s2] [c6 s6]] := trig.
have -> : hexagonal3 cs sn ord fuel tr ph false sympy_R spin = finish_group ord fuel false (hexagonal3_gens cs sn tr ph sympy_R spin) by [].
have [U [EM UN]] : exists U, inversion_spin spin = Pge (dmx3 F ((3, false), true)%N) false false U false /\ (spin = None -> U = None).
  rewrite /inversion_spin /inversion; have -> : - 1%:M = dmx3 F ((3, false), true)%N.
    by rewrite /dmx3 /dmx /= A6_exp3 expr0 mulr1; apply: mat3P; split; rewrite !mxE /= ?mulr1n ?mulr0n ?oppr0 ?expr1.
  by case: (spin) => [s|]; eexists; split.
have [V [EC VN]] : exists V, rotation_3d cs sn 2%:R^-1 (vec3 1 0 0) false None spin =
    Ok (Pge (dmx3 F ((3, true), true)%N) false false V false) /\ (spin = None -> V = None).
  rewrite /rotation_3d c2 s2 rotation3_x scale1r.
  have -> : \matrix_(i, j) nth 0 (nth [::] [:: [:: 1; 0; 0]; [:: 0; -1; - 0]; [:: 0; 0; -1]] i) j = dmx3 F ((3, true), true)%N.
    by rewrite /dmx3 /dmx /= A6_exp3 expr1 mulN1r; apply: mat3P; split; rewrite !mxE /= ?opprK ?oppr0 ?expr1.
  by case: (spin) => [s|] /=; eexists; split.
have [W [ED WN]] : exists W, (if sympy_R then Ok (Pge (sympy_R6_3 F) false false (U6 sympy_R spin) false)
    else rotation_3d cs sn 6%:R^-1 (vec3 0 0 1) false None spin) =
    Ok (Pge (dmx3 F ((if sympy_R then 5 else 1, false), false)%N) false false W false) /\ (spin = None -> W = None).
  case: (sympy_R) => /=.
    rewrite (_ : sympy_R6_3 F = dmx3 F ((5, false), false)%N); first by eexists; split; [reflexivity|move=> ->].
    by rewrite /dmx3 /= -sympy_A6; apply: mat3P; split; rewrite !mxE.
  rewrite /rotation_3d c6 s6 rotation3_z scale1r.
  rewrite (_ : \matrix_(i, j) _ = dmx3 F ((1, false), false)%N); first by case: (spin) => [s|] /=; eexists; split.
  by rewrite /dmx3 /dmx /= expr1 expr0 mulr1; apply: mat3P; split; rewrite !mxE.
rewrite /hexagonal3_gens EC /= ED /= EM.
have := repP (hex3_rep sympy_R) (@dmx3M F) (@dmx3I F) (dmx31 F); rewrite (_ : size dihs3 = 24%N) // => rp.
set gens := [:: _; _; _].
have [||||G EG [PG UG]] := @finish_rep F n ord fuel o 3 tr ph spin gens _ _ 24 rp.
- exact: erefl.
- by move=> g [<-|[<-|[<-|]]].
- by move=> sp g [<-|[<-|[<-|]]] //=; [apply: UN|apply: VN|apply: WN].
- by [].
exists G => //; split=> //; exact: group_ext (@hexagon3P F) PG.
Qed.

(* C87: square and cubic refuse ph=True together with a spin representation *)
Theorem C87_square_cubic tr generators (s : spin_rep F n) :
  square cs sn ord fuel tr true generators (Some s) = Some (Err ValueError) /\
  cubic cs sn ord fuel tr true generators (Some s) = Some (Err ValueError).
Proof. by []. Qed.

(* hexagonal does not: it returns a group *)
Theorem C87_hexagonal_refuted tr sympy_R (s : spin_rep F n) : (96 < fuel)%N ->
  (exists G, hexagonal2 cs sn ord fuel tr true false sympy_R (Some s) = Some (Ok G)) /\
  (exists G, hexagonal3 cs sn ord fuel tr true false sympy_R (Some s) = Some (Ok G)).
Proof.
move=> fu; split; first by have [|G] := @C46_hexagonal2 tr true sympy_R (Some s); [apply: ltn_trans fu|exists G].
by have [G] := @C46_hexagonal3 tr true sympy_R (Some s) fu; exists G.
Qed.
End C46.

(* the diagonal mirror, combined with time reversal, belongs to square(tr=True) but not to square(tr=False) *)
Example C46_diagonal (F : rcfType) (cs sn : F -> F) (ord : forall d, seq (pge F d 0) -> seq (pge F d 0)) :
  (forall d, enumeration (@ord d)) -> trig_table cs sn ->
  let D : 'M[F]_2 := \matrix_(i, j) (if i == j then 0 else 1) in
  (exists2 G, square cs sn ord 33 true false false None = Some (Ok G) & (D, true, false) \in map (@pkey F 2 0) G) /\
  (exists2 G, square cs sn ord 33 false false false None = Some (Ok G) & (D, true, false) \notin map (@pkey F 2 0) G).
Proof.
move=> o trig D.
have sD : signed_perm D.
  apply/smx_signed; apply/mapP; exists [:: (1, false); (0, false)]%N => //.
  by apply: mat2P; rewrite !mxE.
split.
  have [//|//|G EG [[_ _ m _] _]] := @C46_square F 0 cs sn ord 33 o trig true false None; exists G => //.
  by apply/m.
have [//|//|G EG [[_ _ m _] _]] := @C46_square F 0 cs sn ord 33 o trig false false None; exists G => //.
by apply/negP => /m [_ [/(_ isT)]].
Qed.

Print Assumptions C46_square.
Print Assumptions C46_cubic.
Print Assumptions C46_hexagonal2.
Print Assumptions C46_hexagonal3.
Print Assumptions C87_hexagonal_refuted.
