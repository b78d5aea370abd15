(* C106: with its tolerance bravais_point_group does not recognise a primitive orthorhombic lattice with one short side, an
   IndexError is raised; without the tolerance it returns the point group (C105_box) *)
From mathcomp Require Import all_ssreflect all_algebra zify.
From mathcomp Require Import complex.
From Verif Require Import Prelude PySet GroupGen GroupGenProofs GroupSpec PGE Spin Factories LinSpan NullSpec Complement RingTac.
From Verif Require PropFactories PropPointGroups PointGroups PropLLL2.
From Verif Require Import Continuum PropContinuum LLL PropLLL CVP PropCVP PropVoronoi Bravais PropBravais PropBravais2.
From Verif Require Import Bravais3 Space3 Branch3 Rhomb3 Lattice3 Mono3 PropBravais3.

Set Implicit Arguments.
Unset Strict Implicit.
Unset Printing Implicit Defensive.
Import Order.TTheory GRing.Theory Num.Theory.
Local Open Scope ring_scope.

(* lll leaves a basis alone if it is orthogonal and its lengths do not decrease by more than a factor c *)
Section Orthogonal.
Variables (F : rcfType) (m d : nat) (rnd : F -> int) (near : F -> F -> bool).
Hypothesis rndP : forall x, `|x - (rnd x)%:~R| <= 2^-1.
Hypothesis near_refl : forall x, near x x.
Local Notation N := m.+1.
Variable B : 'M[F]_(N, d).
Hypothesis orth : forall i j, i != j -> dot (row i B) (row j B) = 0.
Local Notation s0 := (LState B B (1%:M : 'M[F]_N)).
Local Notation gsc := (@gs_coefficient F d).
Lemma set_row_id k (M : 'M[F]_(N, k)) i : set_row M i (row i M) = M.
Proof. by apply/matrixP=> a b; rewrite !mxE; case: eqP => // ->. Qed.
Lemma below_neq (i j : 'I_N) : j \in below i -> i != j.
Proof. by rewrite mem_filter => /andP[h _]; apply: contraTneq h => ->; rewrite ltnn. Qed.
Lemma reduce_id i (l : seq 'I_N) : (forall j, j \in l -> i != j) -> foldl (reduce_with rnd i) s0 l = s0.
Proof.
elim: l => //= j l IH h; have -> : reduce_with rnd i s0 j = s0; last by apply: IH => k kl; apply: h; rewrite inE kl orbT.
rewrite /reduce_with /= mxE (negbTE (h j (mem_head _ _))) (rnd_int rndP 0) !scale0r !subr0 !set_row_id //.
Qed.
Lemma project_id i (l : seq 'I_N) : (forall j, j \in l -> i != j) -> foldl (project_out gsc i) s0 l = s0.
Proof.
elim: l => //= j l IH h; have ij := h j (mem_head _ _).
have -> : project_out gsc i s0 j = s0; last by apply: IH => k kl; apply: h; rewrite inE kl orbT.
rewrite /project_out /= /gs_coefficient orth // mul0r scale0r subr0 set_row_id; congr LState.
by apply/matrixP=> a b; rewrite !mxE; case: ifP => // /andP[/eqP -> /eqP ->]; rewrite (negbTE ij).
Qed.
Lemma init_id : lll_init rnd gsc B = s0.
Proof.
rewrite /lll_init; elim: (enum 'I_N) => //= i l IH; rewrite /init_row project_id; last by move=> j; exact: below_neq.
by rewrite /ll_reduce reduce_id // => j; rewrite mem_rev; exact: below_neq.
Qed.
Lemma lll_ordered c fuel : row_free B -> (m <= fuel)%N ->
  (forall k, (k < m)%N -> dot (row (inord k) B) (row (inord k) B) < c * dot (row (inord k.+1) B) (row (inord k.+1) B)) ->
  exists T, lll rnd gsc near fuel B c = Some (Ok (B, T)).
Proof.
move=> fB mf le; have lp i f : (i <= m)%N -> (m - i <= f)%N -> lll_loop rnd gsc f c i s0 = Some s0.
  elim: f i => [|f IH] i im mi /=.
    by rewrite ltnNge; move: mi; rewrite leqn0 subn_eq0 => ->.
  by case: ifP => // li; rewrite le // IH //; lia.
have [r Er] : exists r, lll rnd gsc near fuel B c = Some r.
  rewrite /lll init_id lp ?subn0 //; by case: ifP => _; [|case: ifP => _; [|case: ifP => _]]; eexists.
have [V [T [eR uT eV sl red]]] := C56_lll rndP near_refl fB Er.
exists T; rewrite Er eR; move: Er; rewrite eR /lll init_id lp ?subn0 //=.
by case: ifP => // _; case: ifP => // _; case: ifP => // _ [<-].
Qed.
End Orthogonal.

Section Thin3.
Variables (F : rcfType) (n : nat).
Variables (cs sn : F -> F) (rnd : F -> int).
Variable near : F -> F -> bool.
Variable argsort : forall N, ('rV[int]_N -> F) -> seq 'rV[int]_N -> seq 'rV[int]_N.
Variable ord : forall d, seq (pge F d n) -> seq (pge F d n).
Hypothesis ordP : forall d, enumeration (@ord d).
Hypothesis rndP : forall x, `|x - (rnd x)%:~R| <= 2^-1.
Hypothesis near_refl : forall x, near x x.
Hypothesis argsort_perm : forall N key (s : seq 'rV[int]_N), perm_eq (argsort key s) s.
Hypothesis argsort_sorted : forall N key (s : seq 'rV[int]_N), sorted (fun z w => key z <= key w) (argsort key s).
Local Notation gsc := (fun N => @gs_coefficient F N).
Local Notation bravais := (bravais_square cs sn rnd gsc near argsort (bravais_group_3d n cs sn) ord).
Let R := [comRingType of F].
Add Ring Rt3 : (R_ring R).

Variable e : F.
Hypothesis e0 : 0 < e.
(* a box with sides e, 1 and 1 *)
Definition side : 'rV[F]_3 := \row_i if i == 0 then e else 1.
Definition thin3 : 'M[F]_3 := diag_mx side.
Local Notation L := (lattice_point thin3).
Lemma side_neq0 i : side 0 i != 0. Proof. by rewrite mxE; case: ifP => _; rewrite ?oner_eq0 // gt_eqF. Qed.
Lemma thin3_free : row_free thin3.
Proof. by rewrite row_free_unit unitmxE det_diag unitfE; apply/prodf_neq0 => i _; exact: side_neq0. Qed.
Lemma thin3_point z i : L z 0 i = (z 0 i)%:~R * side 0 i.
Proof. by rewrite /lattice_point mul_mx_diag !mxE. Qed.
Lemma thin3_gram x y : gram thin3 x y = (x 0 0 * y 0 0)%:~R * e ^+ 2 + (x 0 1 * y 0 1)%:~R + (x 0 2%:R * y 0 2%:R)%:~R.
Proof. by rewrite /gram dot3 !thin3_point !mxE /= !mulr1 !intrM mulrACA -expr2. Qed.
Lemma row_dot (u v : 'rV[F]_3) : dot u v = \sum_i u 0 i * v 0 i. Proof. by []. Qed.
Lemma thin3_rows i j : i != j -> dot (row i thin3) (row j thin3) = 0.
Proof.
move=> ij; rewrite row_dot big1 // => k _; rewrite !mxE; case: (eqVneq i k) => [<-|]; last by rewrite mul0r.
by have := negbTE ij; rewrite eq_sym => ->; rewrite mulr0.
Qed.
Lemma thin3_lll c fuel : 1 < c -> e ^+ 2 < 1 -> (2 <= fuel)%N -> exists T, lll rnd (@gs_coefficient F 3) near fuel thin3 c = Some (Ok (thin3, T)).
Proof.
move=> c1 e1 f2; apply: lll_ordered => //; [exact: thin3_rows | exact: thin3_free |].
have rq i : dot (row i thin3) (row i thin3) = side 0 i ^+ 2.
  by rewrite row_dot (bigD1 i) //= big1 ?addr0 => [|k ki]; rewrite !mxE ?eqxx ?(eq_sym i) ?(negbTE ki) ?mul0r // -expr2.
have s1 k : (k < 2)%N -> side 0 (inord k.+1) = 1 by move=> k2; rewrite mxE -val_eqE /= inordK.
have s0 : side 0 (inord 0) = e by rewrite mxE -val_eqE /= inordK.
by move=> [|[|k]] // _; rewrite !rq ?s0 ?(s1 1%N) ?(s1 0%N) ?expr1n ?mulr1 //; exact: lt_trans c1.
Qed.

Lemma even_sq (b : int) : (b *+ 2 - 0) * (b *+ 2 - 0) <= 0 * 0 -> (b *+ 2 - 0) * (b *+ 2 - 0) = 0.
Proof. clear; move=> h; have -> : b = 0 by nia. by []. Qed.
Lemma odd_sq (b : int) : (b *+ 2 - 1) * (b *+ 2 - 1) <= 1 * 1 -> (b *+ 2 - 1) * (b *+ 2 - 1) = 1.
Proof. clear; move=> h; have [->|->] : b = 0 \/ b = 1 by nia. by []. by []. Qed.
(* the points that are found: their entries are 0, 1 and -1 *)
Lemma vertex_entry fuel (x y : 'rV[int]_3) i : vertex rnd (@argsort _) fuel thin3 x = Some (Ok y) -> x 0 i \in [:: 0; 1] -> y 0 i * y 0 i = x 0 i.
Proof.
move=> /(vertexP thin3_free rndP (@argsort_perm _) (@argsort_sorted _))[z ey hz] xi.
have := hz (\row_j if j == i then x 0 i else z 0 j); rewrite !row_dot (bigD1 i) //= [X in _ <= X](bigD1 i) //=.
have -> : \sum_(j | j != i) L y 0 j * L y 0 j = \sum_(j | j != i) L ((\row_j if j == i then x 0 i else z 0 j) *+ 2 - x) 0 j * L ((\row_j if j == i then x 0 i else z 0 j) *+ 2 - x) 0 j.
  by apply: eq_bigr => j ji; rewrite !thin3_point ey !mxE (negbTE ji).
have tm k (t : F) : (k%:~R * t) * (k%:~R * t) = (k * k)%:~R * t ^+ 2 by rewrite mulrACA -expr2 intrM.
rewrite ler_add2r !thin3_point !tm ler_pmul2r; last by rewrite exprn_even_gt0 //= side_neq0.
rewrite ler_int ey !mxE eqxx addrK; move: xi; move: (x 0 i) (z 0 i) => a b; rewrite !inE => /orP[] /eqP ->; [exact: even_sq | exact: odd_sq].
Qed.

Definition pt (a b c : int) : 'rV[int]_3 := \row_i [:: a; b; c]`_i.
Lemma displacements3 : displacements 2 = [:: pt 0 0 1; pt 0 1 0; pt 0 1 1; pt 1 0 0; pt 1 0 1; pt 1 1 0; pt 1 1 1].
Proof. by []. Qed.
Lemma not_relevant rtol others x y : y \in others -> (2^-1 - rtol) * gram thin3 y y <= 2^-1 * `|gram thin3 x y| -> 0 < gram thin3 y y -> relevant thin3 rtol others x = false.
Proof.
move=> yo le g0; apply/negbTE; rewrite -has_predC; apply/hasP; exists y => //=.
have n2 : `|2^-1 : F| = 2^-1 by rewrite normfV normr_nat.
have gi : `|(gram thin3 y y)^-1| = (gram thin3 y y)^-1 by rewrite ger0_norm // invr_ge0 ltW.
by rewrite -leNgt normrM normrM n2 gi ler_pdivl_mulr.
Qed.
Variable rtol : F.
Hypotheses (r0 : 0 < rtol) (r4 : rtol < 4%:R^-1) (er : e ^+ 2 <= rtol *+ 2).
Lemma kept_one fuel V : voronoi rnd (@argsort _) fuel thin3 true rtol = Some (Ok V) -> size V = 2%N.
Proof.
rewrite /CVP.voronoi; case hv: (vertices _ _ _ _ _) => [[zs|]|] // [<-].
rewrite size_cat size_map addnn -[2%N]/(1.*2)%N; congr double.
have [g -> gP] := verticesP hv.
have en x i : x \in displacements 2 -> x 0 i \in [:: 0; 1] -> g x 0 i * g x 0 i = x 0 i by move=> /gP; exact: vertex_entry.
rewrite displacements3 in en *.
have E a b c : pt a b c \in [:: pt 0 0 1; pt 0 1 0; pt 0 1 1; pt 1 0 0; pt 1 0 1; pt 1 1 0; pt 1 1 1] ->
    a \in [:: 0; 1] -> b \in [:: 0; 1] -> c \in [:: 0; 1] ->
    [/\ g (pt a b c) 0 0 * g (pt a b c) 0 0 = a, g (pt a b c) 0 1 * g (pt a b c) 0 1 = b & g (pt a b c) 0 2%:R * g (pt a b c) 0 2%:R = c].
  by move=> h ha hb hc; split; rewrite en ?mxE.
pose DS := [:: pt 0 0 1; pt 0 1 0; pt 0 1 1; pt 1 0 0; pt 1 0 1; pt 1 1 0; pt 1 1 1].
have m001 : pt 0 0 1 \in DS by rewrite !inE eqxx ?orbT.
have m010 : pt 0 1 0 \in DS by rewrite !inE eqxx ?orbT.
have m011 : pt 0 1 1 \in DS by rewrite !inE eqxx ?orbT.
have m100 : pt 1 0 0 \in DS by rewrite !inE eqxx ?orbT.
have m101 : pt 1 0 1 \in DS by rewrite !inE eqxx ?orbT.
have m110 : pt 1 1 0 \in DS by rewrite !inE eqxx ?orbT.
have m111 : pt 1 1 1 \in DS by rewrite !inE eqxx ?orbT.
have [z1 z1' z1''] := E 0 0 1 m001 isT isT isT; have [z2 z2' z2''] := E 0 1 0 m010 isT isT isT.
have [z3 z3' z3''] := E 0 1 1 m011 isT isT isT; have [z4 z4' z4''] := E 1 0 0 m100 isT isT isT.
have [z5 z5' z5''] := E 1 0 1 m101 isT isT isT; have [z6 z6' z6''] := E 1 1 0 m110 isT isT isT.
have [z7 z7' z7''] := E 1 1 1 m111 isT isT isT.
rewrite [map _ _]/=; move: (g (pt 0 0 1)) (g (pt 0 1 0)) (g (pt 0 1 1)) (g (pt 1 0 0)) (g (pt 1 0 1)) (g (pt 1 1 0)) (g (pt 1 1 1))
  z1 z1' z1'' z2 z2' z2'' z3 z3' z3'' z4 z4' z4'' z5 z5' z5'' z6 z6' z6'' z7 z7' z7''.
clear g gP hv en E m001 m010 m011 m100 m101 m110 m111 DS => p1 p2 p3 p4 p5 p6 p7 z1 z1' z1'' z2 z2' z2'' z3 z3' z3'' z4 z4' z4'' z5 z5' z5'' z6 z6' z6'' z7 z7' z7''.
have sq0 (k : int) : k * k = 0 -> k = 0 by move=> /eqP; rewrite mulf_eq0 orbb => /eqP.
have unit (k l : int) : k * k = 1 -> l * l = 1 -> `|(k * l)%:~R : F| = 1.
  by move=> kk ll; rewrite -intr_norm (PropVoronoi.unit_norm kk ll).
have ep : 0 < e ^+ 2 by rewrite exprn_gt0.
have q5 : gram thin3 p5 p5 = e ^+ 2 + 1 by rewrite thin3_gram z5 z5' z5'' mul1r addr0.
have q6 : gram thin3 p6 p6 = e ^+ 2 + 1 by rewrite thin3_gram z6 z6' z6'' mul1r addr0.
have q7 : gram thin3 p7 p7 = e ^+ 2 + 1 + 1 by rewrite thin3_gram z7 z7' z7'' mul1r.
have q4 : gram thin3 p4 p4 = e ^+ 2 by rewrite thin3_gram z4 z4' z4'' mul1r !addr0.
have [x1 x2 x3] := And3 (sq0 _ z1) (sq0 _ z2) (sq0 _ z3); have [y1 y2] := (sq0 _ z1', sq0 _ z2'').
have [y4 w4] := (sq0 _ z4', sq0 _ z4''); have [y5 w6] := (sq0 _ z5', sq0 _ z6'').
have hs : 2^-1 * e ^+ 2 <= rtol by rewrite mulrC ler_pdivr_mulr ?ltr0n // mulr_natr.
have narrow : (2^-1 - rtol) * (e ^+ 2 + 1) <= 2^-1 * 1.
  have -> : (2^-1 - rtol) * (e ^+ 2 + 1) = 2^-1 * 1 + ((2^-1 * e ^+ 2 - rtol) - rtol * e ^+ 2).
    by move: (2^-1 : F) (e ^+ 2) => t s; ringm R.
  by rewrite ger_addl subr_le0; apply: (@le_trans _ _ 0); [rewrite subr_le0 | rewrite mulr_ge0 // ltW].
have g1 : relevant thin3 rtol [:: p2; p3; p4; p5; p6; p7] p1 = false.
  apply: (@not_relevant _ _ _ p5); rewrite ?inE ?eqxx ?orbT // q5 ?addr_gt0 ?ltr01 //.
  by rewrite thin3_gram x1 y1 !mul0r !add0r unit.
have g2 : relevant thin3 rtol [:: p3; p4; p5; p6; p7] p2 = false.
  apply: (@not_relevant _ _ _ p6); rewrite ?inE ?eqxx ?orbT // q6 ?addr_gt0 ?ltr01 //.
  by rewrite thin3_gram x2 y2 !mul0r !add0r addr0 unit.
have g3 : relevant thin3 rtol [:: p4; p5; p6; p7] p3 = false.
  apply: (@not_relevant _ _ _ p5); rewrite ?inE ?eqxx ?orbT // q5 ?addr_gt0 ?ltr01 //.
  by rewrite thin3_gram x3 y5 mulr0 !mul0r !add0r unit.
have g4 (x : 'rV[int]_3) : x 0 0 * x 0 0 = 1 -> `|gram thin3 x p4| = e ^+ 2.
  by move=> xx; rewrite thin3_gram y4 w4 !mulr0 !addr0 normrM unit // mul1r gtr0_norm.
have g4' (x : 'rV[int]_3) : x 0 0 * x 0 0 = 1 -> `|gram thin3 p4 x| = e ^+ 2.
  by move=> xx; rewrite thin3_gram y4 w4 !mul0r !addr0 normrM unit // mul1r gtr0_norm.
have gn others (x : 'rV[int]_3) : x 0 0 * x 0 0 = 1 -> p4 \in others -> relevant thin3 rtol others x = false.
  move=> xx po; apply: (not_relevant po); rewrite q4 // g4 // ler_pmul2r // ger_addl oppr_le0; exact: ltW.
have gr : relevant thin3 rtol [:: p5; p6; p7] p4 = true.
  have ok q : e ^+ 2 + 1 <= q -> 2^-1 * e ^+ 2 * q^-1 < 2^-1 - rtol.
    move=> le; have q1 : 1 <= q by apply: le_trans le; rewrite ler_addr ltW.
    apply: (@le_lt_trans _ _ rtol).
      apply: le_trans hs; apply: ler_pimulr; first by apply: mulr_ge0; [rewrite invr_ge0 ler0n | exact: ltW].
      by rewrite invf_le1 //; apply: lt_le_trans q1; exact: ltr01.
    rewrite ltr_subr_addl; have -> : 2^-1 = 4%:R^-1 + 4%:R^-1 :> F; last exact: ltr_add.
    by rewrite -mulr2n -[_ *+ 2]mulr_natr -[4%N]/(2 * 2)%N natrM invfM mulfVK ?pnatr_eq0.
  have n2 : `|2^-1 : F| = 2^-1 by rewrite normfV normr_nat.
  have st (y : 'rV[int]_3) : y 0 0 * y 0 0 = 1 -> e ^+ 2 + 1 <= gram thin3 y y -> `|2^-1 * gram thin3 p4 y / gram thin3 y y| < 2^-1 - rtol.
    move=> yy le; have gp : 0 < gram thin3 y y by apply: (lt_le_trans _ le); apply: addr_gt0; [exact: ep | exact: ltr01].
    have gi : `|(gram thin3 y y)^-1| = (gram thin3 y y)^-1 by rewrite ger0_norm // invr_ge0 ltW.
    by rewrite normrM gi normrM n2 g4' //; exact: ok.
  by apply/allP=> y; rewrite !inE => /or3P[] /eqP ->; apply: st => //; rewrite ?q5 ?q6 ?q7 ?ler_addl ?ler01 ?lexx.
have [h5 [h6 h7]] := (gn [:: p4; p6; p7] p5 z5 (mem_head _ _), (gn [:: p4; p7] p6 z6 (mem_head _ _), gn [:: p4] p7 z7 (mem_head _ _))).
by cbn [discard cat rcons]; rewrite g1 g2 g3 gr h5 h6 h7.
Qed.

Lemma one_vector (nb : seq 'rV[F]_3) : size nb = 1%N -> bravais_group_3d n cs sn nb = Err IndexError.
Proof.
by case: nb => [|v []].
Qed.
Lemma e_small : e ^+ 2 < 1.
Proof.
apply: le_lt_trans er _; rewrite -mulr_natr -ltr_pdivl_mulr ?ltr0n // mul1r.
by apply: lt_trans r4 _; rewrite ltf_pinv ?posrE ?ltr0n // ltr_nat.
Qed.
(* C106: with the tolerance, IndexError: num_eq[-2] of a list with one entry *)
Theorem C106_raises_refuted c : 1 < c -> exists f0, forall fuel tr ph generators, (f0 <= fuel)%N ->
  bravais fuel thin3 c rtol tr ph generators = Some (Err IndexError).
Proof.
move=> c1; have [f1 [V ev]] := C58_terminates thin3_free rndP (@argsort_perm _) (@argsort_sorted _) true rtol.
exists (maxn 2 f1) => fuel tr ph generators; rewrite geq_max => /andP[l2 l1].
have [T el] := thin3_lll c1 e_small l2; rewrite /bravais_square el (voronoi_mono l1 ev) /=.
by rewrite one_vector // size_take size_map (kept_one ev).
Qed.
Lemma thin3_box : box thin3 (e *: delta_mx 0 0) (delta_mx 0 1) (delta_mx 0 (2%:R : 'I_3)).
Proof.
split.
  split; split; rewrite ?scaler_eq0 ?(gt_eqF e0) /=; try (by rewrite dot3 !mxE /= ?(mulr0, mul0r, mulr1, addr0));
    by rewrite -dot_eq0 dot3 !mxE /= ?(mulr0, mul0r, mulr1, addr0, add0r) oner_eq0.
move=> w; split=> [[z ->]|[i [j [k ->]]]].
  exists (z 0 0), (z 0 1), (z 0 2%:R); apply: row3; rewrite thin3_point /comb !mxE /= ?(mulr0, mulr1, addr0, add0r) //.
exists (pt i j k); apply: row3; rewrite thin3_point /comb !mxE /= ?(mulr0, mulr1, addr0, add0r) //.
Qed.
(* without the tolerance it returns *)
Theorem C106_exact c : PropPointGroups.trig_table cs sn -> 4%:R / 3%:R < c -> exists f0, forall fuel tr ph generators, (f0 <= fuel)%N ->
  exists G, bravais fuel thin3 c 0 tr ph generators = Some (Ok G).
Proof.
move=> trig c43; exact: (C105_box ordP rndP near_refl argsort_perm argsort_sorted trig thin3_free thin3_box c43).
Qed.
End Thin3.
(* the tolerance of the code, 1e-5, and a box with sides 4e-3, 1 and 1 *)
Example C106_numbers (F : rcfType) : let h : F := 10%:R^-1 in let rtol := h ^+ 5 in let e := 4%:R * h ^+ 3 in
  [/\ 0 < e, 0 < rtol, rtol < 4%:R^-1 & e ^+ 2 <= rtol *+ 2].
Proof.
move=> h rtol e; have h0 : 0 < h by rewrite invr_gt0 ltr0n.
have h1 : h < 4%:R^-1 by rewrite ltf_pinv ?posrE ?ltr0n // ltr_nat.
split; [by rewrite mulr_gt0 ?ltr0n ?exprn_gt0 | by rewrite exprn_gt0 | |].
  by apply: le_lt_trans h1; rewrite /rtol exprS ler_pimulr ?(ltW h0) // exprn_ile1 ?(ltW h0) // invf_le1 ?ltr0n // ler1n.
have -> : e ^+ 2 = ((4 ^ 2)%:R * h) * h ^+ 5 by rewrite /e exprMn -natrX -exprM -mulrA -exprS.
rewrite -[rtol *+ 2]mulr_natl; apply: ler_pmul => //; rewrite ?mulr_ge0 ?ler0n ?exprn_ge0 ?(ltW h0) //.
by rewrite ler_pdivr_mulr ?ltr0n // -natrM ler_nat.
Qed.
Print Assumptions C106_raises_refuted.
Print Assumptions C106_exact.

