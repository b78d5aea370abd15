(* C107: with its tolerance bravais_point_group finds only the inversion for a primitive orthorhombic lattice with two
   short sides; without the tolerance it returns the point group (C105_box) *)
From mathcomp Require Import all_ssreflect all_algebra zify.
From mathcomp Require Import complex.
From Verif Require Import Prelude PySet GroupGen GroupGenProofs GroupSpec PGE Spin Factories LinSpan NullSpec Complement RingTac.
From Verif Require PropFactories PropPointGroups PointGroups PropLLL2.
From Verif Require Import Continuum PropContinuum LLL PropLLL CVP PropCVP PropVoronoi Bravais PropBravais PropBravais2.
From Verif Require Import Bravais3 Space3 Branch3 Rhomb3 Lattice3 Mono3 PropBravais3 PropThin3.

Set Implicit Arguments.
Unset Strict Implicit.
Unset Printing Implicit Defensive.
Import Order.TTheory GRing.Theory Num.Theory.
Local Open Scope ring_scope.

Section Rod3.
Variables (F : rcfType) (n : nat).
Variables (cs sn : F -> F) (rnd : F -> int).
Variable near : F -> F -> bool.
Variable argsort : forall N, ('rV[int]_N -> F) -> seq 'rV[int]_N -> seq 'rV[int]_N.
Variable ord : forall d, seq (pge F d n) -> seq (pge F d n).
Hypothesis ordP : forall d, enumeration (@ord d).
Hypothesis rndP : forall x, `|x - (rnd x)%:~R| <= 2^-1.
Hypothesis near_refl : forall x, near x x.
Hypothesis argsort_perm : forall N key (s : seq 'rV[int]_N), perm_eq (argsort key s) s.
Hypothesis argsort_sorted : forall N key (s : seq 'rV[int]_N), sorted (fun z w => key z <= key w) (argsort key s).
Local Notation gsc := (fun N => @gs_coefficient F N).
Local Notation bravais := (bravais_square cs sn rnd gsc near argsort (bravais_group_3d n cs sn) ord).
Let R := [comRingType of F].
Add Ring Rr3 : (R_ring R).

Variable e : F.
Hypothesis e0 : 0 < e.
(* a box with sides e, 2 e and 1 *)
Definition edge : 'rV[F]_3 := \row_i if i == 0 then e else if i == 1 then 2%:R * e else 1.
Definition rod3 : 'M[F]_3 := diag_mx edge.
Local Notation L := (lattice_point rod3).
Lemma edge_neq0 i : edge 0 i != 0.
Proof. by rewrite mxE; case: ifP => _; [|case: ifP => _]; rewrite ?oner_eq0 ?mulf_neq0 ?pnatr_eq0 // gt_eqF. Qed.
Lemma rod3_free : row_free rod3.
Proof. by rewrite row_free_unit unitmxE det_diag unitfE; apply/prodf_neq0 => i _; exact: edge_neq0. Qed.
Lemma rod3_point z i : L z 0 i = (z 0 i)%:~R * edge 0 i.
Proof. by rewrite /lattice_point mul_mx_diag !mxE. Qed.
Lemma rod3_gram x y : gram rod3 x y = (x 0 0 * y 0 0)%:~R * e ^+ 2 + (x 0 1 * y 0 1)%:~R * (4%:R * e ^+ 2) + (x 0 2%:R * y 0 2%:R)%:~R.
Proof.
rewrite /gram dot3 !rod3_point !mxE /= !mulr1 !intrM mulrACA -expr2; congr (_ + _ + _).
by rewrite mulrACA -expr2 exprMn -natrX.
Qed.
Lemma rod3_rows i j : i != j -> dot (row i rod3) (row j rod3) = 0.
Proof.
move=> ij; rewrite row_dot big1 // => k _; rewrite !mxE; case: (eqVneq i k) => [<-|]; last by rewrite mul0r.
by have := negbTE ij; rewrite eq_sym => ->; rewrite mulr0.
Qed.
Lemma rod3_lll c fuel : 1 < c -> 4%:R * e ^+ 2 < 1 -> (2 <= fuel)%N -> exists T, lll rnd (@gs_coefficient F 3) near fuel rod3 c = Some (Ok (rod3, T)).
Proof.
move=> c1 e1 f2; apply: lll_ordered => //; [exact: rod3_rows | exact: rod3_free |].
have rq i : dot (row i rod3) (row i rod3) = edge 0 i ^+ 2.
  by rewrite row_dot (bigD1 i) //= big1 ?addr0 => [|k ki]; rewrite !mxE ?eqxx ?(eq_sym i) ?(negbTE ki) ?mul0r // -expr2.
have s0 : edge 0 (inord 0) ^+ 2 = e ^+ 2 by rewrite mxE -val_eqE /= inordK.
have s1 : edge 0 (inord 1) ^+ 2 = 4%:R * e ^+ 2 by rewrite mxE -!val_eqE /= inordK //= exprMn -natrX.
have s2 : edge 0 (inord 2) ^+ 2 = 1 by rewrite mxE -!val_eqE /= inordK //= expr1n.
have ep : 0 < e ^+ 2 by rewrite exprn_gt0.
have c0 : 0 < c by apply: lt_trans c1; exact: ltr01.
move=> [|[|k]] // _; rewrite !rq ?s0 ?s1 ?s2; last by rewrite mulr1; exact: lt_trans c1.
by rewrite mulrA ltr_pmull //; apply: (lt_le_trans c1); rewrite ler_pmulr // ler1n.
Qed.
Lemma rod_entry fuel (x y : 'rV[int]_3) i : vertex rnd (@argsort _) fuel rod3 x = Some (Ok y) -> x 0 i \in [:: 0; 1] -> y 0 i * y 0 i = x 0 i.
Proof.
move=> /(vertexP rod3_free rndP (@argsort_perm _) (@argsort_sorted _))[z ey hz] xi.
have := hz (\row_j if j == i then x 0 i else z 0 j); rewrite !row_dot (bigD1 i) //= [X in _ <= X](bigD1 i) //=.
have -> : \sum_(j | j != i) L y 0 j * L y 0 j = \sum_(j | j != i) L ((\row_j if j == i then x 0 i else z 0 j) *+ 2 - x) 0 j * L ((\row_j if j == i then x 0 i else z 0 j) *+ 2 - x) 0 j.
  by apply: eq_bigr => j ji; rewrite !rod3_point ey !mxE (negbTE ji).
have tm k (t : F) : (k%:~R * t) * (k%:~R * t) = (k * k)%:~R * t ^+ 2 by rewrite mulrACA -expr2 intrM.
rewrite ler_add2r !rod3_point !tm ler_pmul2r; last by rewrite exprn_even_gt0 //= edge_neq0.
rewrite ler_int ey !mxE eqxx addrK; move: xi; move: (x 0 i) (z 0 i) => a b; rewrite !inE => /orP[] /eqP ->; [exact: even_sq | exact: odd_sq].
Qed.

Lemma rod_drops rtol others x y : y \in others -> (2^-1 - rtol) * gram rod3 y y <= 2^-1 * `|gram rod3 x y| -> 0 < gram rod3 y y -> relevant rod3 rtol others x = false.
Proof.
move=> yo le g0; apply/negbTE; rewrite -has_predC; apply/hasP; exists y => //=.
have n2 : `|2^-1 : F| = 2^-1 by rewrite normfV normr_nat.
have gi : `|(gram rod3 y y)^-1| = (gram rod3 y y)^-1 by rewrite ger0_norm // invr_ge0 ltW.
by rewrite -leNgt normrM normrM n2 gi ler_pdivl_mulr.
Qed.
Variable rtol : F.
Hypotheses (r0 : 0 < rtol) (r10 : rtol < 10%:R^-1) (er : 4%:R * e ^+ 2 <= rtol *+ 2).
Lemma kept_two fuel V : voronoi rnd (@argsort _) fuel rod3 true rtol = Some (Ok V) -> size V = 4%N /\ exists k l, [/\ (k : int) * k = 1, (l : int) * l = 1 & take 2 [seq L z | z <- V] = [:: L (pt 0 k 0); L (pt l 0 0)]].
Proof.
rewrite /CVP.voronoi; case hv: (vertices _ _ _ _ _) => [[zs|]|] // [<-].
have [g -> gP] := verticesP hv.
have en x i : x \in displacements 2 -> x 0 i \in [:: 0; 1] -> g x 0 i * g x 0 i = x 0 i by move=> /gP; exact: rod_entry.
rewrite displacements3 in en *.
have E a b c : pt a b c \in [:: pt 0 0 1; pt 0 1 0; pt 0 1 1; pt 1 0 0; pt 1 0 1; pt 1 1 0; pt 1 1 1] ->
    a \in [:: 0; 1] -> b \in [:: 0; 1] -> c \in [:: 0; 1] ->
    [/\ g (pt a b c) 0 0 * g (pt a b c) 0 0 = a, g (pt a b c) 0 1 * g (pt a b c) 0 1 = b & g (pt a b c) 0 2%:R * g (pt a b c) 0 2%:R = c].
  by move=> h ha hb hc; split; rewrite en ?mxE.
pose DS := [:: pt 0 0 1; pt 0 1 0; pt 0 1 1; pt 1 0 0; pt 1 0 1; pt 1 1 0; pt 1 1 1].
have m001 : pt 0 0 1 \in DS by rewrite !inE eqxx ?orbT.
have m010 : pt 0 1 0 \in DS by rewrite !inE eqxx ?orbT.
have m011 : pt 0 1 1 \in DS by rewrite !inE eqxx ?orbT.
have m100 : pt 1 0 0 \in DS by rewrite !inE eqxx ?orbT.
have m101 : pt 1 0 1 \in DS by rewrite !inE eqxx ?orbT.
have m110 : pt 1 1 0 \in DS by rewrite !inE eqxx ?orbT.
have m111 : pt 1 1 1 \in DS by rewrite !inE eqxx ?orbT.
have [z1 z1' z1''] := E 0 0 1 m001 isT isT isT; have [z2 z2' z2''] := E 0 1 0 m010 isT isT isT.
have [z3 z3' z3''] := E 0 1 1 m011 isT isT isT; have [z4 z4' z4''] := E 1 0 0 m100 isT isT isT.
have [z5 z5' z5''] := E 1 0 1 m101 isT isT isT; have [z6 z6' z6''] := E 1 1 0 m110 isT isT isT.
have [z7 z7' z7''] := E 1 1 1 m111 isT isT isT.
rewrite [map _ _]/=; move: (g (pt 0 0 1)) (g (pt 0 1 0)) (g (pt 0 1 1)) (g (pt 1 0 0)) (g (pt 1 0 1)) (g (pt 1 1 0)) (g (pt 1 1 1))
  z1 z1' z1'' z2 z2' z2'' z3 z3' z3'' z4 z4' z4'' z5 z5' z5'' z6 z6' z6'' z7 z7' z7''.
clear g gP hv en E m001 m010 m011 m100 m101 m110 m111 DS => p1 p2 p3 p4 p5 p6 p7 z1 z1' z1'' z2 z2' z2'' z3 z3' z3'' z4 z4' z4'' z5 z5' z5'' z6 z6' z6'' z7 z7' z7''.
have sq0 (k : int) : k * k = 0 -> k = 0 by move=> /eqP; rewrite mulf_eq0 orbb => /eqP.
have unit (k l : int) : k * k = 1 -> l * l = 1 -> `|(k * l)%:~R : F| = 1.
  by move=> kk ll; rewrite -intr_norm (PropVoronoi.unit_norm kk ll).
have row1 (p : 'rV[int]_3) a b c : p 0 0 = a -> p 0 1 = b -> p 0 2%:R = c -> p = pt a b c.
  move=> h0 h1 h2; apply/rowP => i; rewrite mxE; case: i => [[|[|[|]]]] // h /=; [rewrite -h0|rewrite -h1|rewrite -h2]; congr (p 0 _); exact: val_inj.
have ep : 0 < e ^+ 2 by rewrite exprn_gt0.
move: er rod3_gram; move: (e ^+ 2) ep => s ep er' rg.
have q5 : gram rod3 p5 p5 = s + 1 by rewrite rg z5 z5' z5'' mul1r mul0r addr0.
have q6 : gram rod3 p6 p6 = s + 4%:R * s by rewrite rg z6 z6' z6'' !mul1r addr0.
have q7 : gram rod3 p7 p7 = s + 4%:R * s + 1 by rewrite rg z7 z7' z7'' !mul1r.
have q4 : gram rod3 p4 p4 = s by rewrite rg z4 z4' z4'' mul1r mul0r !addr0.
have q3 : gram rod3 p3 p3 = 4%:R * s + 1 by rewrite rg z3 z3' z3'' mul1r mul0r add0r.
have q2 : gram rod3 p2 p2 = 4%:R * s by rewrite rg z2 z2' z2'' mul1r mul0r add0r addr0.
have [x1 x2 x3] := And3 (sq0 _ z1) (sq0 _ z2) (sq0 _ z3); have [y1 y2] := (sq0 _ z1', sq0 _ z2'').
have [y4 w4] := (sq0 _ z4', sq0 _ z4''); have [y5 w6] := (sq0 _ z5', sq0 _ z6'').
have hs4 : 2^-1 * (4%:R * s) <= rtol by rewrite mulrC ler_pdivr_mulr ?ltr0n // mulr_natr.
have le4 : s <= 4%:R * s by rewrite ler_pmull // ler1n.
have hs : 2^-1 * s <= rtol by apply: le_trans hs4; rewrite ler_pmul2l // invr_gt0 ltr0n.
have narrow : (2^-1 - rtol) * (s + 1) <= 2^-1 * 1.
  have -> : (2^-1 - rtol) * (s + 1) = 2^-1 * 1 + ((2^-1 * s - rtol) - rtol * s).
    by move: (2^-1 : F) (s) => t s'; ringm R.
  by rewrite ger_addl subr_le0; apply: (@le_trans _ _ 0); [rewrite subr_le0 | rewrite mulr_ge0 // ltW].
have g1 : relevant rod3 rtol [:: p2; p3; p4; p5; p6; p7] p1 = false.
  apply: (@rod_drops _ _ _ p5); rewrite ?inE ?eqxx ?orbT // q5 ?addr_gt0 ?ltr01 //.
  by rewrite rg x1 y1 !mul0r !add0r unit.
have g3 : relevant rod3 rtol [:: p2; p4; p5; p6; p7] p3 = false.
  apply: (@rod_drops _ _ _ p5); rewrite ?inE ?eqxx ?orbT // q5 ?addr_gt0 ?ltr01 //.
  by rewrite rg x3 y5 mulr0 !mul0r !add0r unit.
have g4 (x : 'rV[int]_3) : x 0 0 * x 0 0 = 1 -> `|gram rod3 x p4| = s.
  by move=> xx; rewrite rg y4 w4 !mulr0 !mul0r !addr0 normrM unit // mul1r gtr0_norm.
have g4' (x : 'rV[int]_3) : x 0 0 * x 0 0 = 1 -> `|gram rod3 p4 x| = s.
  by move=> xx; rewrite rg y4 w4 !mul0r !addr0 normrM unit // mul1r gtr0_norm.
have g2' (x : 'rV[int]_3) : x 0 1 * x 0 1 = 1 -> `|gram rod3 p2 x| = 4%:R * s.
  by move=> xx; rewrite rg x2 y2 !mul0r !add0r !addr0 normrM unit // mul1r gtr0_norm // mulr_gt0 ?ltr0n.
have gn others (x : 'rV[int]_3) : x 0 0 * x 0 0 = 1 -> p4 \in others -> relevant rod3 rtol others x = false.
  move=> xx po; apply: (rod_drops po); rewrite q4 // g4 // ler_pmul2r // ger_addl oppr_le0; exact: ltW.
have n2 : `|2^-1 : F| = 2^-1 by rewrite normfV normr_nat.
have p10 : 0 < 10%:R :> F by rewrite ltr0n.
have room : 4%:R / 10%:R < 2^-1 - rtol.
  rewrite ltr_subr_addl; have -> : 2^-1 = 10%:R^-1 + 4%:R / 10%:R :> F; last by rewrite ltr_add2r.
  have -> : 10%:R^-1 + 4%:R / 10%:R = (5 %:R) / 10%:R :> F by rewrite -[X in X + _]mul1r -mulrDl -[1]/(1%:R) -natrD.
  by rewrite -[10%N]/(2 * 5)%N natrM invfM mulrC divfK ?pnatr_eq0.
have near_ok (x y : 'rV[int]_3) (t : F) : `|gram rod3 x y| = t -> 0 < gram rod3 y y -> 10%:R * t <= 8%:R * gram rod3 y y ->
    `|2^-1 * gram rod3 x y / gram rod3 y y| < 2^-1 - rtol.
  move=> et gp le; apply: le_lt_trans room.
  have gi : `|(gram rod3 y y)^-1| = (gram rod3 y y)^-1 by rewrite ger0_norm // invr_ge0 ltW.
  rewrite normrM gi normrM n2 et ler_pdivr_mulr // mulrAC ler_pdivl_mulr //.
  have -> : 2^-1 * t * 10%:R = 10%:R * t / 2%:R by rewrite -mulrA mulrC [t * _]mulrC.
  by rewrite ler_pdivr_mulr ?ltr0n // mulrAC -natrM.
have s1 : 4%:R * s <= 1.
  apply: (le_trans er'); rewrite -mulr_natr -ler_pdivl_mulr ?ltr0n // mul1r ltW //.
  by apply: lt_trans r10 _; rewrite ltf_pinv ?posrE ?ltr0n // ltr_nat.
have s4 : 0 < 4%:R * s by rewrite mulr_gt0 ?ltr0n.
have sc (a b : nat) : (a <= b)%N -> a%:R * s <= b%:R * s by move=> ab; rewrite ler_pmul2r // ler_nat.
have [p2' p5' p6' p7'] : [/\ 0 < s + 1, 0 < s + 4%:R * s, 0 < s + 4%:R * s + 1 & 0 < 4%:R * s + 1] by split; rewrite !addr_gt0 ?ltr01.
have E5 : s + 4%:R * s = 5%:R * s by rewrite -[X in X + _]mul1r -mulrDl -[1]/(1%:R) -natrD.
have s8 (a : nat) : (a <= 32)%N -> a%:R * s <= 8%:R.
  move=> /sc le; apply: (le_trans le); rewrite -[32%N]/(8 * 4)%N natrM -mulrA ler_pimulr ?ler0n //.
have k1 : 10%:R * s <= 8%:R * (s + 1) by rewrite mulrDr mulr1 -[10%N]/(8 + 2)%N natrD mulrDl ler_add2l s8.
have k5 : 40%:R * s <= 8%:R * (s + 4%:R * s) by rewrite E5 mulrA -natrM.
have k4 : 10%:R * (4%:R * s) <= 8%:R * (s + 4%:R * s) by rewrite mulrA -natrM.
have k6 : 10%:R * s <= 8%:R * (s + 4%:R * s) by apply: le_trans k5; exact: sc.
have up (a b : F) : a <= 8%:R * b -> a <= 8%:R * (b + 1) by move=> h; rewrite mulrDr; apply: le_trans h _; rewrite ler_addl mulr1 ler0n.
have k3 : 10%:R * (4%:R * s) <= 8%:R * (4%:R * s + 1).
  by rewrite mulrDr mulr1 !mulrA -!natrM -[(10 * 4)%N]/(32 + 8)%N natrD mulrDl ler_add2l s8.
have k0 (b : F) : 0 < b -> 10%:R * 0 <= 8%:R * b by move=> b0; rewrite mulr0 mulr_ge0 ?ler0n // ltW.
have r2 : relevant rod3 rtol [:: p3; p4; p5; p6; p7] p2 = true.
  rewrite /relevant /= andbT; apply/and5P; split.
  - by apply: (near_ok _ _ (4%:R * s)); rewrite ?q3 ?g2'.
  - by apply: (near_ok _ _ 0); rewrite ?q4 ?k0 // rg y4 w4 x2 !mulr0 !mul0r !addr0 normr0.
  - by apply: (near_ok _ _ 0); rewrite ?q5 ?k0 // rg y5 y2 x2 !mulr0 !mul0r !addr0 normr0.
  - by apply: (near_ok _ _ (4%:R * s)); rewrite ?q6 ?g2'.
  - by apply: (near_ok _ _ (4%:R * s)); rewrite ?q7 ?g2' // up.
have r4 : relevant rod3 rtol [:: p2; p5; p6; p7] p4 = true.
  rewrite /relevant /= andbT; apply/and4P; split.
  - by apply: (near_ok _ _ 0); rewrite ?q2 ?k0 // rg y4 w4 x2 !mulr0 !mul0r !addr0 normr0.
  - by apply: (near_ok _ _ s); rewrite ?q5 ?g4'.
  - by apply: (near_ok _ _ s); rewrite ?q6 ?g4'.
  - by apply: (near_ok _ _ s); rewrite ?q7 ?g4' // up.
have [h5 [h6 h7]] := (gn [:: p2; p4; p6; p7] p5 z5, (gn [:: p2; p4; p7] p6 z6, gn [:: p2; p4] p7 z7)).
cbn [discard cat rcons]; rewrite g1 r2.
cbn [discard cat rcons]; rewrite g3 r4.
cbn [discard cat rcons]; rewrite h5 ?h6 ?h7 ?inE ?eqxx ?orbT //.
split=> //; exists (p2 0 1), (p4 0 0); split=> //=.
by rewrite -(row1 p2 0 (p2 0 1) 0) // -(row1 p4 (p4 0 0) 0 0).
Qed.

Lemma two_vectors (u v : 'rV[F]_3) : dot u u != dot v v -> bravais_group_3d n cs sn [:: u; v] = Ok [::].
Proof.
move=> ne; have sz : [seq size S | S <- equals [:: u; v]] = [:: 1; 1]%N.
  rewrite /equals /=; case: ifP => // /eqP /signature_q h; by rewrite h eqxx in ne.
by rewrite /bravais_group_3d sz.
Qed.
Lemma rod_group fuel V : voronoi rnd (@argsort _) fuel rod3 true rtol = Some (Ok V) ->
  bravais_group_3d n cs sn (take (size V)./2 [seq L z | z <- V]) = Ok [::].
Proof.
move=> /kept_two [-> [k [l [kk ll ->]]]]; apply: two_vectors.
rewrite -!/(gram rod3 _ _) !rod3_gram !mxE /= kk ll !mul0r !mul1r !addr0 add0r.
by rewrite -subr_eq0 -[X in _ - X]mul1r -mulrBl mulf_neq0 ?expf_neq0 ?(gt_eqF e0) // -[1]/(1%:R) -natrB ?pnatr_eq0.
Qed.
Lemma rod_small : 4%:R * e ^+ 2 < 1.
Proof.
apply: le_lt_trans er _; rewrite -mulr_natr -ltr_pdivl_mulr ?ltr0n // mul1r.
by apply: lt_trans r10 _; rewrite ltf_pinv ?posrE ?ltr0n // ltr_nat.
Qed.
(* the half turn about the first side *)
Definition half_x : 'M[F]_3 := diag_mx (\row_i if i == 0 then 1 else -1).
Lemma half_x_act (v : 'rV[F]_3) i : act half_x v 0 i = v 0 i * (if i == 0 then 1 else -1).
Proof. by rewrite /act /half_x tr_diag_mx mul_mx_diag !mxE. Qed.
Lemma half_x_orthogonal : half_x *m half_x^T = 1%:M.
Proof.
rewrite tr_diag_mx mulmx_diag -diag_const_mx; congr diag_mx; apply/rowP => i; rewrite !mxE.
by case: ifP => _; rewrite ?mulr1 ?mulrNN ?mulr1.
Qed.
Lemma half_x_preserves : preserves rod3 half_x.
Proof.
have inv (v : 'rV[F]_3) : act half_x (act half_x v) = v.
  by apply/rowP => i; rewrite !half_x_act; case: ifP => _; rewrite ?mulr1 ?mulrN1 ?opprK.
have one v : in_lattice rod3 v -> in_lattice rod3 (act half_x v).
  move=> [z ->]; exists (\row_i if i == 0 then z 0 i else - z 0 i); apply/rowP => i.
  by rewrite half_x_act !rod3_point mxE; case: ifP => _; rewrite ?mulr1 // mulrN1 rmorphN mulNr.
by move=> v; split=> [|/one]; [exact: one | rewrite inv].
Qed.
(* C107: the group consists of the identity and the inversion, the half turn about a side is missing *)
Theorem C107_complete_refuted c : 1 < c -> exists f0, forall fuel, (f0 <= fuel)%N ->
  [/\ exists G, bravais fuel rod3 c rtol false false true = Some (Ok G),
      half_x *m half_x^T = 1%:M, preserves rod3 half_x &
      forall tr ph generators G g, bravais fuel rod3 c rtol tr ph generators = Some (Ok G) -> List.In g G ->
        (pR g = 1%:M \/ pR g = - 1%:M) /\ pR g <> half_x].
Proof.
move=> c1; have [f1 [V ev]] := C58_terminates rod3_free rndP (@argsort_perm _) (@argsort_sorted _) true rtol.
exists (maxn 2 f1) => fuel; rewrite geq_max => /andP[l2 l1].
have [T el] := rod3_lll c1 rod_small l2; have ev' := voronoi_mono l1 ev.
split; [|exact: half_x_orthogonal|exact: half_x_preserves|].
  have gE (nb : seq 'rV[F]_3) : group_nd cs sn (bravais_group_3d n cs sn) nb = bravais_group_3d n cs sn nb by [].
  exists [:: inversion 3 None]; rewrite /bravais_square el ev' gE (rod_group ev).
  have atp : add_tr_ph false false None [:: inversion 3 None] = Ok [:: inversion 3 None : pge F 3 n] by [].
  by rewrite atp check_inversion.
move=> tr ph generators G g h gG.
have H : pR g = 1%:M \/ pR g = - 1%:M.
  have [P [T' [V' [nb [gens [el' ev'' enb eg [gens' ea [_ ind]]]]]]]] := bravais_inv (fun d => @ordP d) h.
  move: el' ev'' enb eg; rewrite el => -[<- _]; rewrite ev' => -[<-] ->.
  rewrite /= (rod_group ev) => -[eg].
  rewrite -eg in ea; apply: (ind (fun g => pR g = 1%:M \/ pR g = - 1%:M)) gG.
    by move=> g' gg; have [[<-|[]]|->] := add_tr_ph_In ea gg; [right|left].
  by move=> g1 g2 /= [->|->] [->|->]; rewrite ?mulmxN ?mulNmx ?mul1mx ?opprK; [left|right|right|left].
split=> //; case: H => -> /matrixP h2; [move: (h2 1 1) | move: (h2 0 0)]; rewrite !mxE /= => /eqP.
  by rewrite -addr_eq0 -mulr2n pnatr_eq0.
by rewrite eq_sym -addr_eq0 -mulr2n pnatr_eq0.
Qed.
Lemma rod3_box : box rod3 (e *: delta_mx 0 0) ((2%:R * e) *: delta_mx 0 1) (delta_mx 0 (2%:R : 'I_3)).
Proof.
have e20 : (2%:R * e == 0) = false by rewrite mulf_eq0 pnatr_eq0 (gt_eqF e0).
split.
  split; split; rewrite ?scaler_eq0 ?e20 ?(gt_eqF e0) /=; try (by rewrite dot3 !mxE /= ?(mulr0, mul0r, mulr1, addr0));
    by rewrite -dot_eq0 dot3 !mxE /= ?(mulr0, mul0r, mulr1, addr0, add0r) oner_eq0.
move=> w; split=> [[z ->]|[i [j [k ->]]]].
  exists (z 0 0), (z 0 1), (z 0 2%:R); apply: row3; rewrite rod3_point /comb !mxE /= ?(mulr0, mulr1, addr0, add0r) //.
exists (pt i j k); apply: row3; rewrite rod3_point /comb !mxE /= ?(mulr0, mulr1, addr0, add0r) //.
Qed.
(* without the tolerance it is found *)
Theorem C107_exact c : PropPointGroups.trig_table cs sn -> 4%:R / 3%:R < c -> exists f0, forall fuel tr ph, (f0 <= fuel)%N ->
  exists G, bravais fuel rod3 c 0 tr ph false = Some (Ok G) /\ exists2 g, List.In g G & pR g = half_x.
Proof.
move=> trig c43; have [f0 H] := C105_box ordP rndP near_refl argsort_perm argsort_sorted trig rod3_free rod3_box c43.
exists f0 => fuel tr ph lf; have [G EG] := H _ tr ph false lf; exists G; split=> //.
have [order [[_ _ mem _] _]] := C105_group ordP rndP argsort_perm argsort_sorted trig rod3_free EG.
have : (half_x, false, false) \in map (@PointGroups.pkey F 3 n) G by apply/mem; split; [split; [exact: half_x_orthogonal | exact: half_x_preserves] | split].
elim: G {EG mem} => //= g G IH; rewrite inE => /orP[/eqP h|/IH [g' gG gR]].
  by exists g; [left | exact: esym (congr1 (fun k => k.1.1) h)].
by exists g'; [right|].
Qed.
End Rod3.
(* the tolerance of the code, 1e-5, and a box with sides 1e-3, 2e-3 and 1 *)
Example C107_numbers (F : rcfType) : let h : F := 10%:R^-1 in let rtol := h ^+ 5 in let e := h ^+ 3 in
  [/\ 0 < e, 0 < rtol, rtol < 10%:R^-1 & 4%:R * e ^+ 2 <= rtol *+ 2].
Proof.
move=> h rtol e; have h0 : 0 < h by rewrite invr_gt0 ltr0n.
have h1 : h < 1 by rewrite invf_lt1 ?ltr0n // ltr1n.
split; [by rewrite exprn_gt0 | by rewrite exprn_gt0 | |].
  by rewrite /rtol exprS -/h gtr_pmulr // exprn_ilt1 // ltW.
have -> : 4%:R * e ^+ 2 = (4%:R * h) * h ^+ 5 by rewrite /e -exprM -mulrA -exprS.
rewrite -[rtol *+ 2]mulr_natl; apply: ler_pmul => //; rewrite ?mulr_ge0 ?ler0n ?exprn_ge0 ?(ltW h0) //.
by rewrite ler_pdivr_mulr ?ltr0n // -natrM ler_nat.
Qed.
Print Assumptions C107_complete_refuted.
Print Assumptions C107_exact.
