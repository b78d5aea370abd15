(* The vectors kept by voronoi in three dimensions: no two are parallel, they span the space,
   and four of them never lie in a plane through the origin *)
From mathcomp Require Import all_ssreflect all_algebra zify.
From mathcomp Require Import complex.
From Verif Require Import Prelude PySet PGE LinSpan NullSpec Complement RingTac.
From Verif Require Import Continuum PropContinuum LLL PropLLL CVP PropCVP PropVoronoi Bravais PropBravais PropBravais2 Bravais3 Space3.

Set Implicit Arguments.
Unset Strict Implicit.
Unset Printing Implicit Defensive.
Import Order.TTheory GRing.Theory Num.Theory.
Local Open Scope ring_scope.

(* ---- four different classes modulo two ---- *)
Definition allb (P : bool -> bool) := P true && P false.
Lemma allbP P : allb P -> forall b, P b. Proof. by case/andP=> h h' []. Qed.
Definition detb a b c d e f g h i : bool :=
  (a && (e && i (+) f && h)) (+) (b && (d && i (+) f && g)) (+) (c && (d && h (+) e && g)).
Definition four_ok (a1 a2 a3 b1 b2 b3 c1 c2 c3 d1 d2 d3 : bool) : bool :=
  [|| ~~ [|| a1, a2 | a3], ~~ [|| b1, b2 | b3], ~~ [|| c1, c2 | c3], ~~ [|| d1, d2 | d3],
      (a1, a2, a3) == (b1, b2, b3), (a1, a2, a3) == (c1, c2, c3), (a1, a2, a3) == (d1, d2, d3),
      (b1, b2, b3) == (c1, c2, c3), (b1, b2, b3) == (d1, d2, d3), (c1, c2, c3) == (d1, d2, d3),
      detb a1 a2 a3 b1 b2 b3 c1 c2 c3, detb a1 a2 a3 b1 b2 b3 d1 d2 d3,
      detb a1 a2 a3 c1 c2 c3 d1 d2 d3 | detb b1 b2 b3 c1 c2 c3 d1 d2 d3].
Lemma four_classes a1 a2 a3 b1 b2 b3 c1 c2 c3 d1 d2 d3 : four_ok a1 a2 a3 b1 b2 b3 c1 c2 c3 d1 d2 d3.
Proof.
move: d3; apply: allbP; move: d2; apply: allbP; move: d1; apply: allbP.
move: c3; apply: allbP; move: c2; apply: allbP; move: c1; apply: allbP.
move: b3; apply: allbP; move: b2; apply: allbP; move: b1; apply: allbP.
move: a3; apply: allbP; move: a2; apply: allbP; move: a1; apply: allbP.
by vm_compute.
Qed.

Definition oddi (x : int) : bool := (x %% 2)%Z == 1.
Lemma oddiD x y : oddi (x + y) = oddi x (+) oddi y. Proof. rewrite /oddi; case: eqP; case: eqP; case: eqP; lia. Qed.
Lemma oddiN x : oddi (- x) = oddi x. Proof. rewrite /oddi; lia. Qed.
Lemma oddiM x y : oddi (x * y) = oddi x && oddi y.
Proof.
have h z : exists w (b : bool), z = 2 * w + b%:Z by exists (z %/ 2)%Z, (oddi z); rewrite /oddi; lia.
have E w (b : bool) : oddi (2 * w + b%:Z) = b by rewrite /oddi; case: b; lia.
have [w [b ->]] := h x; have [v [c ->]] := h y; rewrite !E.
have -> : (2 * w + b%:Z) * (2 * v + c%:Z) = 2 * (2 * (w * v) + w * c%:Z + b%:Z * v) + (b && c)%:Z; last exact: E.
by case: b; case: c => /=; lia.
Qed.
Lemma oddi_half x : oddi x = false -> exists y, x = y *+ 2.
Proof. by move=> h; exists (x %/ 2)%Z; move: h; rewrite /oddi; lia. Qed.
Definition deti (a b c : 'rV[int]_3) : int :=
  a 0 0 * (b 0 1 * c 0 2 - b 0 2 * c 0 1) - a 0 1 * (b 0 0 * c 0 2 - b 0 2 * c 0 0) + a 0 2 * (b 0 0 * c 0 1 - b 0 1 * c 0 0).
Lemma odd_deti a b c : oddi (deti a b c) =
  detb (oddi (a 0 0)) (oddi (a 0 1)) (oddi (a 0 2)) (oddi (b 0 0)) (oddi (b 0 1)) (oddi (b 0 2)) (oddi (c 0 0)) (oddi (c 0 1)) (oddi (c 0 2)).
Proof. by rewrite /deti /detb !(oddiD, oddiN, oddiM). Qed.
Lemma row3i (u v : 'rV[int]_3) : u 0 0 = v 0 0 -> u 0 1 = v 0 1 -> u 0 2 = v 0 2 -> u = v.
Proof.
move=> h0 h1 h2; apply/rowP => -[[|[|[|//]]] i] /=.
- by rewrite (_ : Ordinal i = 0) //; exact: val_inj.
- by rewrite (_ : Ordinal i = 1) //; exact: val_inj.
- by rewrite (_ : Ordinal i = 2) //; exact: val_inj.
Qed.
Lemma even_row (u v : 'rV[int]_3) : (oddi (u 0 0), oddi (u 0 1), oddi (u 0 2)) = (oddi (v 0 0), oddi (v 0 1), oddi (v 0 2)) ->
  exists w, v = u + w *+ 2.
Proof.
move=> [h0 h1 h2]; have d x y : oddi x = oddi y -> exists w, y = x + w *+ 2.
  by move=> e; have [|w ew] := @oddi_half (y - x); [rewrite oddiD oddiN e addbb | exists w; rewrite -ew addrC subrK].
have [w0 e0] := d _ _ h0; have [w1 e1] := d _ _ h1; have [w2 e2] := d _ _ h2.
exists (\row_(i < 3) if i == 0 then w0 else if i == 1 then w1 else w2).
by apply: row3i; rewrite !mulr2n !mxE /= -?mulr2n.
Qed.
Lemma four_det (a b c d : 'rV[int]_3) :
  (forall y w, y \in [:: a; b; c; d] -> y <> w *+ 2) ->
  (forall y z w, y \in [:: a; b; c; d] -> z \in [:: a; b; c; d] -> z = y + w *+ 2 -> z = y) -> uniq [:: a; b; c; d] ->
  [|| deti a b c != 0, deti a b d != 0, deti a c d != 0 | deti b c d != 0].
Proof.
move=> n2 cls u.
have nz y : y \in [:: a; b; c; d] -> [|| oddi (y 0 0), oddi (y 0 1) | oddi (y 0 2)].
  move=> yi; apply/negPn/negP; rewrite !negb_or => /and3P[/negPf h0 /negPf h1 /negPf h2].
  have [|w e] := @even_row 0 y; first by rewrite !mxE h0 h1 h2.
  by apply: (n2 y w) => //; rewrite e add0r.
have ne y z : y \in [:: a; b; c; d] -> z \in [:: a; b; c; d] -> y != z ->
   (oddi (y 0 0), oddi (y 0 1), oddi (y 0 2)) != (oddi (z 0 0), oddi (z 0 1), oddi (z 0 2)).
  move=> yi zi yz; apply/eqP => /even_row [w e]; case/eqP: yz; apply/esym; exact: (cls y z w).
have [ia ib ic id] : [/\ a \in [:: a; b; c; d], b \in [:: a; b; c; d], c \in [:: a; b; c; d] & d \in [:: a; b; c; d]].
  by rewrite !inE !eqxx !orbT.
move: u; rewrite /= !inE !negb_or => /and4P[/and3P[ab ac ad] /andP[bc bd] cd _].
have := four_classes (oddi (a 0 0)) (oddi (a 0 1)) (oddi (a 0 2)) (oddi (b 0 0)) (oddi (b 0 1)) (oddi (b 0 2))
  (oddi (c 0 0)) (oddi (c 0 1)) (oddi (c 0 2)) (oddi (d 0 0)) (oddi (d 0 1)) (oddi (d 0 2)).
rewrite /four_ok !nz // !(negPf (ne _ _ _ _ _)) // -!odd_deti /=.
have z x : oddi x -> x != 0 by apply: contraTneq => ->.
by case/or4P=> /z ->; rewrite ?orbT.
Qed.

(* four rows of integers are dependent modulo two *)
Definition dep_ok (a1 a2 a3 b1 b2 b3 c1 c2 c3 d1 d2 d3 : bool) : bool :=
  let z e1 e2 e3 e4 x y v w := ~~ ((e1 && x) (+) (e2 && y) (+) (e3 && v) (+) (e4 && w)) in
  let f e1 e2 e3 e4 := [&& [|| e1, e2, e3 | e4], z e1 e2 e3 e4 a1 b1 c1 d1, z e1 e2 e3 e4 a2 b2 c2 d2 & z e1 e2 e3 e4 a3 b3 c3 d3] in
  let bb := [:: true; false] in
  has (fun e1 => has (fun e2 => has (fun e3 => has (fun e4 => f e1 e2 e3 e4) bb) bb) bb) bb.
Lemma dep_classes a1 a2 a3 b1 b2 b3 c1 c2 c3 d1 d2 d3 : dep_ok a1 a2 a3 b1 b2 b3 c1 c2 c3 d1 d2 d3.
Proof.
move: d3; apply: allbP; move: d2; apply: allbP; move: d1; apply: allbP.
move: c3; apply: allbP; move: c2; apply: allbP; move: c1; apply: allbP.
move: b3; apply: allbP; move: b2; apply: allbP; move: b1; apply: allbP.
move: a3; apply: allbP; move: a2; apply: allbP; move: a1; apply: allbP.
by vm_compute.
Qed.
Lemma four_dep (a b c d : 'rV[int]_3) : exists e1 e2 e3 e4 : bool,
  [|| e1, e2, e3 | e4] /\ exists w, e1%:Z *: a + e2%:Z *: b + e3%:Z *: c + e4%:Z *: d = w *+ 2.
Proof.
have := dep_classes (oddi (a 0 0)) (oddi (a 0 1)) (oddi (a 0 2)) (oddi (b 0 0)) (oddi (b 0 1)) (oddi (b 0 2))
  (oddi (c 0 0)) (oddi (c 0 1)) (oddi (c 0 2)) (oddi (d 0 0)) (oddi (d 0 1)) (oddi (d 0 2)).
case/hasP=> e1 _ /hasP[e2 _] /hasP[e3 _] /hasP[e4 _] /and4P[ne /negbTE h0 /negbTE h1 /negbTE h2].
exists e1, e2, e3, e4; split=> //.
have ob (e : bool) : oddi e%:Z = e by case: e.
have [|w e] := @even_row 0 (e1%:Z *: a + e2%:Z *: b + e3%:Z *: c + e4%:Z *: d); last by exists w; rewrite e add0r.
by rewrite !mxE !(oddiD, oddiM, ob) h0 h1 h2.
Qed.

(* ---- the neighbours ---- *)
Section Lattice.
Variables (F : rcfType) (rnd : F -> int).
Let Rg := [comRingType of F].
Add Ring RrL : (R_ring Rg).
Hypothesis rndP : forall x, `|x - (rnd x)%:~R| <= 2^-1.
Variable P : 'M[F]_3.
Hypothesis fP : row_free P.
Variable zs : seq 'rV[int]_3.
Hypothesis szs : shortest_set P zs.
Local Notation L := (lattice_point P).
Local Notation K := (discard P 0 [::] zs).
Local Notation nb := (neighbors P zs).
Local Notation q v := (dot v v).
Local Notation cr := (@npcross F).

Lemma nb_npar u v : u \in nb -> v \in nb -> u != v -> cr u v != 0.
Proof.
move=> /mapP[x xK ->] /mapP[y yK ->] ne; have xy : x != y by apply: contraNneq ne => ->.
have l1 : `|dot (L x) (L y)| < q (L x).
  by rewrite dotC; apply: (kept_pairs fP szs).
have l2 : `|dot (L x) (L y)| < q (L y) by apply: (kept_pairs fP szs) => //; rewrite eq_sym.
rewrite -dot_eq0 lagrange subr_eq0; apply/eqP => e.
have : `|dot (L x) (L y)| * `|dot (L x) (L y)| < q (L x) * q (L y) by apply: ltr_pmul.
by rewrite e -expr2 real_normK ?num_real // ltxx.
Qed.
Lemma perp_lattice (x : 'rV[F]_3) : (forall p, dot x (L p) = 0) -> x = 0.
Proof.
move=> h; have uP : P \in unitmx by rewrite -row_free_unit.
have e : x *m P^T = 0.
  apply/rowP => i; rewrite !mxE; have := h (delta_mx 0 i); rewrite /lattice_point map_delta_mx -rowE /dot => {2}<-.
  by apply: eq_bigr => j _; rewrite !mxE.
have uPT : P^T \in unitmx by rewrite unitmx_tr.
by rewrite -[x](mulmxK uPT) e mul0mx.
Qed.
Lemma nb_span (x : 'rV[F]_3) : (forall v, v \in nb -> dot x v = 0) -> x = 0.
Proof.
move=> h; apply: perp_lattice => p; have [sub _] := discard_sub P 0 [::] zs.
have [f ->] := kept_generates fP rndP szs (uniq_sub_pm (uniq_pm fP szs) sub) (reduced_reason fP szs) p.
have z : forall y, y \in K ++ [seq - y | y <- K] -> dot x (L y) = 0.
  move=> y; rewrite mem_cat => /orP[yK|/mapP[y' yK ->]]; first by apply: h; exact: map_f.
  by rewrite LN dotNr h ?oppr0 //; exact: map_f.
elim: (_ ++ _) z => [|y s IH] z; first by rewrite big_nil L0 dot0r.
rewrite big_cons LD dotDr IH ?addr0 => [|y' ys]; last by apply: z; rewrite inE ys orbT.
rewrite Lz -scaler_int dotZr z ?mulr0 // mem_head //.
Qed.
Lemma nb_three : (2 < size nb)%N.
Proof.
have sp := nb_span; have npar := nb_npar.
have nz (v : 'rV[F]_3) : (forall x, dot x v = 0 -> x = 0) -> False.
  move=> h; have c w : cr v w = 0 by apply: h; rewrite dotC dot_crl.
  have v0 : v != 0.
    apply/eqP => v0; have := h (delta_mx 0 0); rewrite v0 dot0r => /(_ erefl) /rowP /(_ 0).
    by rewrite !mxE => /eqP; rewrite oner_eq0.
  have : cr (delta_mx 0 0 : 'rV[F]_3) (delta_mx 0 1) = 0 by apply: (par_trans v0); rewrite crC c oppr0.
  by move/matrixP/(_ 0 2); rewrite !mxE /= !(mulr0, mulr1, subr0, mul0r) => /eqP; rewrite oner_eq0.
have u : uniq nb by have := uniq_neighbors fP szs; rewrite cat_uniq => /andP[].
move: sp npar u; case: nb => [|a [|b [|c s]]] // sp npar u.
- by case: (nz 0) => x _; apply: sp.
- by case: (nz a) => x xa; apply: sp => v; rewrite inE => /eqP ->.
- have ab : a != b by move: u; rewrite /= inE andbT.
  have := npar a b; rewrite !inE !eqxx orbT => /(_ isT isT ab) /eqP; case; apply: sp => v.
  by rewrite !inE => /orP[]/eqP ->; rewrite dotC ?dot_crl ?dot_crr.
Qed.
Lemma nb_ncop (D : seq 'rV[F]_3) x : uniq D -> {subset D <= nb} -> (3 < size D)%N -> (forall v, v \in D -> dot x v = 0) -> x = 0.
Proof.
case: D => [|v1 [|v2 [|v3 [|v4 D]]]] // u sub _ h.
have [sK _] := discard_sub P 0 [::] zs; have {}sK := mem_subseq sK.
have get v : v \in [:: v1, v2, v3, v4 & D] -> exists2 k, k \in zs & v = L k.
  by move/sub=> /mapP[k kK ->]; exists k => //; apply: sK.
have [k1 z1 e1] := get v1 (mem_head _ _).
have [k2 z2 e2] : exists2 k, k \in zs & v2 = L k by apply: get; rewrite !inE eqxx orbT.
have [k3 z3 e3] : exists2 k, k \in zs & v3 = L k by apply: get; rewrite !inE eqxx !orbT.
have [k4 z4 e4] : exists2 k, k \in zs & v4 = L k by apply: get; rewrite !inE eqxx !orbT.
have u4 : uniq [:: k1; k2; k3; k4].
  have : uniq [:: v1; v2; v3; v4] by move: u; rewrite -[_ :: _]/([:: v1; v2; v3; v4] ++ D) cat_uniq => /andP[].
  by rewrite e1 e2 e3 e4 -[X in uniq X]/(map L [:: k1; k2; k3; k4]) (map_inj_uniq (L_inj fP)).
have sz k : k \in [:: k1; k2; k3; k4] -> k \in zs by rewrite !inE => /or4P[]/eqP ->.
have [_ _ n2 cls] := szs.
have := four_det (fun y w yk => n2 y w (sz y yk)) (fun y z w yk zk => cls y z w (sz y yk) (sz z zk)) u4.
have x1 : dot x (L k1) = 0 by rewrite -e1; apply: h; rewrite mem_head.
have x2 : dot x (L k2) = 0 by rewrite -e2; apply: h; rewrite !inE eqxx orbT.
have x3 : dot x (L k3) = 0 by rewrite -e3; apply: h; rewrite !inE eqxx !orbT.
have x4 : dot x (L k4) = 0 by rewrite -e4; apply: h; rewrite !inE eqxx !orbT.
have key a b c : dot x (L a) = 0 -> dot x (L b) = 0 -> dot x (L c) = 0 -> deti a b c != 0 -> x = 0.
  move=> xa xb xc dn; have uP : P \in unitmx by rewrite -row_free_unit.
  pose y := x *m P^T.
  pose f (k : 'rV[int]_3) : 'rV[F]_3 := map_mx intr k.
  have yE k : dot y (f k) = dot x (L k).
    rewrite /dot [RHS](eq_bigr (fun j => \sum_i x 0 j * ((k 0 i)%:~R * P i j))); last first.
      by move=> j _; rewrite /lattice_point !mxE mulr_sumr; apply: eq_bigr => i _; rewrite !mxE.
    rewrite exchange_big /=; apply: eq_bigr => i _; rewrite !mxE mulr_suml; apply: eq_bigr => j _.
    by rewrite !mxE -mulrA [P i j * _]mulrC.
  have dF : dot (f a) (cr (f b) (f c)) = (deti a b c)%:~R.
    by rewrite dot3 !crE !mxE /deti !(rmorphD, rmorphN, rmorphM) /=; move: (_%:~R) (_%:~R) (_%:~R) (_%:~R) (_%:~R) (_%:~R) (_%:~R) (_%:~R) (_%:~R) => ? ? ? ? ? ? ? ? ?; ringm Rg.
  have d0 : dot (f a) (cr (f b) (f c)) != 0 by rewrite dF intr_eq0.
  have z : y = 0.
    have c0 : cr (f b) (f c) != 0 by apply: contraNneq d0 => ->; rewrite dot0r.
    have yk := parE (perp_par (etrans (yE b) xb) (etrans (yE c) xc)) c0.
    have := etrans (yE a) xa; rewrite yk dotZl [dot _ (f a)]dotC => /eqP.
    by rewrite mulf_eq0 (negPf d0) orbF => /eqP ->; rewrite scale0r.
  have uPT : P^T \in unitmx by rewrite unitmx_tr.
  by rewrite -[x](mulmxK uPT) -/y z mul0mx.
by case/or4P; apply: key.
Qed.

(* ---- what the proof of the monoclinic branch needs ---- *)
Local Notation inL := (in_lattice P).
Lemma in_latD u v : inL u -> inL v -> inL (u + v).
Proof. by move=> [x ->] [y ->]; exists (x + y); rewrite LD. Qed.
Lemma in_latN u : inL u -> inL (- u).
Proof. by move=> [x ->]; exists (- x); rewrite LN. Qed.
Lemma L2 x : L (x *+ 2) = L x *+ 2. Proof. by rewrite !mulr2n LD. Qed.
Lemma nb_lat v : v \in nb -> inL v.
Proof. by move=> /mapP[x _ ->]; exists x. Qed.
Lemma nb_min v w : v \in nb -> inL w -> q (v + w *+ 2) <= q v -> pm (v + w *+ 2) v.
Proof.
move=> /mapP[x xK ->] [y ->]; rewrite -L2 -LD => le.
have [_ h] : only_shortest P x by apply/(keptP rndP fP szs); rewrite mem_cat xK.
by case: (h y le) => ->; rewrite ?LN; [left | right].
Qed.
Lemma nb_all v : inL v -> (forall w, inL w -> v <> w *+ 2) -> (forall w, inL w -> q (v + w *+ 2) <= q v -> pm (v + w *+ 2) v) -> v \in pms nb.
Proof.
move=> [x ->] n2 mn; rewrite (mem_neighbors fP); apply/(keptP rndP fP szs); split=> w.
  by move=> e; apply: (n2 (L w)); [exists w | rewrite e L2].
move=> le; have i := @L_inj _ _ _ fP; case: (mn (L w)); rewrite -?L2 -?LD //; first by exists w.
  by move/i; left.
by rewrite -LN => /i; right.
Qed.
Lemma lat_dep a b u v : inL a -> inL b -> inL u -> inL v -> exists e1 e2 e3 e4 : bool,
  [|| e1, e2, e3 | e4] /\ exists2 w, inL w & e1%:R *: a + e2%:R *: b + e3%:R *: u + e4%:R *: v = w *+ 2.
Proof.
move=> [x ->] [y ->] [z ->] [t ->]; have [e1 [e2 [e3 [e4 [ne [w e]]]]]] := four_dep x y z t.
exists e1, e2, e3, e4; split=> //; exists (L w); first by exists w.
have Lb (k : bool) p : L (k%:Z *: p) = k%:R *: L p by case: k; rewrite ?scale1r ?scale0r ?L0.
by rewrite -L2 -e !LD !Lb.
Qed.
End Lattice.
