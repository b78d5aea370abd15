(* C103: in two dimensions bravais_point_group finds the point group of the lattice, if voronoi is called without tolerance *)
From mathcomp Require Import all_ssreflect all_algebra zify.
From mathcomp Require Import complex.
From Verif Require Import Prelude PySet GroupGen GroupGenProofs GroupSpec PGE Spin Factories LinSpan NullSpec Complement RingTac.
From Verif Require PropFactories PropPointGroups.
From Verif Require Import Continuum PropContinuum LLL PropLLL CVP PropCVP PropVoronoi Bravais PropBravais.

Set Implicit Arguments.
Unset Strict Implicit.
Unset Printing Implicit Defensive.
Import Order.TTheory GRing.Theory Num.Theory.
Local Open Scope ring_scope.

(* ---- Voronoi's criterion: the vectors that are kept ---- *)
Section Criterion.
Variables (F : rcfType) (m d : nat) (rnd : F -> int).
Hypothesis rndP : forall x, `|x - (rnd x)%:~R| <= 2^-1.
Local Notation N := m.+1.
Local Notation point := 'rV[int]_N.
Let R := [comRingType of F].
Add Ring Rr : (R_ring R).
Variable B : 'M[F]_(N, d).
Hypothesis fB : row_free B.
Local Notation L := (lattice_point B).
Local Notation q p := (dot (L p) (L p)).
Implicit Types (p a b y z w : point) (u : 'rV[F]_d) (V K : seq point).

(* not twice a lattice vector, and up to the sign the only shortest one that differs from y by twice a lattice vector *)
Definition only_shortest y := (forall w, y <> w *+ 2) /\ forall w, q (y + w *+ 2) <= q y -> y + w *+ 2 = y \/ y + w *+ 2 = - y.

Lemma small_step (f g h : point -> F) (s : seq point) : (forall y, y \in s -> 0 <= h y /\ f y < g y) ->
  exists2 t : F, 0 < t & forall y, y \in s -> f y + t * h y <= g y.
Proof.
elim: s => [|y s IH] H; first by exists 1; rewrite ?ltr01.
have [|t t0 tP] := IH; first by move=> z zs; apply: H; rewrite inE zs orbT.
have [h0 fg] := H y (mem_head _ _).
pose t' := (g y - f y) / (h y + 1).
have h1 : 0 < h y + 1 by apply: lt_le_trans ltr01 _; rewrite ler_addr.
have t'0 : 0 < t' by rewrite divr_gt0 // subr_gt0.
exists (Num.min t t'); first by rewrite lt_minr t0.
move=> z; rewrite inE => /orP[/eqP ->|zs].
  rewrite -ler_subr_addl; apply: le_trans (_ : t' * (h y + 1) <= _); last by rewrite divfK // gt_eqF.
  apply: ler_pmul => //; last by rewrite ler_addl ler01.
    by rewrite le_minr (ltW t0) (ltW t'0).
  by rewrite le_minl lexx orbT.
have [hz _] : 0 <= h z /\ f z < g z by apply: H; rewrite inE zs orbT.
by apply: le_trans (tP z zs); rewrite ler_add2l ler_wpmul2r // le_minl lexx.
Qed.

Variable zs : seq point.
Hypothesis szs : shortest_set B zs.
Local Notation K := (discard B 0 [::] zs).
Local Notation pm := (K ++ [seq - y | y <- K]).

Lemma kept_pairs x y : x \in K -> y \in K -> y != x -> `|dot (L x) (L y)| < q y.
Proof.
move=> xK yK yx; have [/mem_subseq ks _] := discard_sub B 0 [::] zs; have uz : uniq zs by case: szs.
have := discard_pairs (kept := [::]) uz (ks _ xK) xK yK yx.
by rewrite passesE // (shortest_neq0 szs) // (ks _ yK).
Qed.

Lemma kept_only y : y \in K -> only_shortest y.
Proof.
move=> yK; have [/mem_subseq ks _] := discard_sub B 0 [::] zs; have yz := ks _ yK.
have [uz par n2 cls] := szs; split=> [w|w le]; first exact: n2.
have qe : q (y + w *+ 2) = q y.
  apply/eqP; rewrite eq_le le /=; have [[v e]|[y' [v [y'z e le']]]] := par (y + w *+ 2).
    by case: (n2 y (v - w) yz); rewrite mulrnBl -e addrK.
  have ey : y = y' by apply: (cls y' y (v - w)) => //; rewrite mulrnBl addrA -e addrK.
  by move: le'; rewrite -ey.
have [w0|w0] := eqVneq w 0; first by left; rewrite w0 mul0rn addr0.
have [u0|u0] := eqVneq (y + w) 0; first by right; rewrite mulr2n addrA u0 add0r; apply/eqP; rewrite -addr_eq0 addrC u0.
exfalso; set u := y + w in u0.
have yE : y = u - w by rewrite /u addrK.
have uw : dot (L u) (L w) = 0.
  have : q (u + w) = q (u - w) by rewrite -yE -qe mulr2n addrA.
  by rewrite qD qB => /addIr/addrI/eqP; rewrite -addr_eq0 -mulr2n -mulrnA mulrn_eq0 /= => /eqP.
have qu : 0 < q u by rewrite (q_gt0 fB). have qw : 0 < q w by rewrite (q_gt0 fB).
pose e := q w *: L u + q u *: L w.
have ey : dot e (L y) = 0.
  rewrite yE LB dotDl !dotZl !(dotC _ (L u - _)) !dotBl (dotC (L w) (L u)) uw; move: (q u) (q w) => s t; ringm R.
have eu : dot e (L u) = q u * q w.
  by rewrite dotDl !dotZl (dotC (L w)) uw mulr0 addr0 mulrC.
have [|t t0 tP] := @small_step (fun k => `|dot (L y) (L k)|) (fun k => q k) (fun k => `|dot e (L k) *+ 2|) [seq k <- K | k != y].
  move=> k; rewrite mem_filter => /andP[ky kK]; split; first exact: normr_ge0.
  by apply: kept_pairs.
have in_K k : k \in K -> `|dot (2^-1 *: L y + t *: e) (L k) *+ 2| <= q k.
  move=> kK; have -> : dot (2^-1 *: L y + t *: e) (L k) *+ 2 = dot (L y) (L k) + t * (dot e (L k) *+ 2).
    rewrite dotDl !dotZl mulrnDl -[X in X + _]mulr_natl mulrA mulfV ?pnatr_eq0 // mul1r; congr (_ + _).
    by rewrite mulrnAr.
  have [->|ky] := eqVneq k y; first by rewrite ey mul0rn mulr0 addr0 ger0_norm ?dot_ge0.
  have := tP k; rewrite mem_filter ky kK => /(_ isT); apply: le_trans.
  by apply: le_trans (ler_norm_add _ _) _; rewrite normrM (gtr0_norm t0).
have /(_ u) : voronoi_cell B (2^-1 *: L y + t *: e).
  have sym k : k \in pm -> - k \in pm by rewrite mem_pm.
  apply/(kept_cell fB rndP szs (reduced_reason fB szs))/(in_cell _ _ sym) => k.
  rewrite mem_cat mem_opp => /orP[/in_K //|/in_K].
  by rewrite LN !dotNr dotNl opprK mulNrn normrN.
rewrite closerE dotDl !dotZl eu yE LB dotBl (dotC (L w)) uw subr0 leNgt => /negP; apply.
rewrite mulrnDl -[X in _ < X + _]mulr_natl mulrA mulfV ?pnatr_eq0 // mul1r ltr_addl pmulrn_lgt0 //.
by rewrite !mulr_gt0.
Qed.

Lemma double0 z : (z *+ 2 == 0) = (z == 0).
Proof. by rewrite -!(L_eq0 fB) L2 scaler_eq0 pnatr_eq0. Qed.
Lemma only_kept y : only_shortest y -> y \in pm.
Proof.
move=> [n2 os]; have [uz par n2' cls] := szs.
have [[w e]|[z [w [zz e le]]]] := par y; first by case: (n2 w).
have zy : z = y \/ z = - y.
  by have := os (- w); rewrite mulNrn e addrK -e; apply.
have {}os v : q (z + v *+ 2) <= q z -> z + v *+ 2 = z \/ z + v *+ 2 = - z.
  case: zy => ->; first exact: os.
  have -> : - y + v *+ 2 = - (y + (- v) *+ 2) by rewrite mulNrn opprB addrC.
  by rewrite !qN => /os [->|->]; rewrite ?opprK; [left | right].
suff zK : z \in K by rewrite mem_cat mem_opp; case: zy zK => -> ->; rewrite ?orbT.
have [//|[y' [y'z ne lt]]] := reduced_reason fB szs zz.
have y0 := shortest_neq0 szs y'z.
pose s := if 0 <= dot (L z) (L y') then - y' else y'.
have : q (z + s *+ 2) <= q z.
  have -> : q (z + s *+ 2) = q z + (q y' - `|dot (L z) (L y')|) *+ 4.
    rewrite qD q2 L2 dotZr /s; case: ifPn => [ge|]; last rewrite -ltNge => lt0.
      rewrite qN LN dotNr ger0_norm //; move: (q z) (q y') (dot _ _) => a b c; rewrite !mulr2n -[_ *+ 4]mulr_natr; ringm R.
    rewrite ltr0_norm //; move: (q z) (q y') (dot _ _) => a b c; rewrite !mulr2n -[_ *+ 4]mulr_natr; ringm R.
  by rewrite ger_addl pmulrn_lle0 // subr_le0.
have s0 : s != 0 by rewrite /s; case: ifP; rewrite ?oppr_eq0.
case/os => [/eqP|/eqP]; first by rewrite -subr_eq0 addrC addKr double0 (negPf s0).
rewrite -addr_eq0 addrAC -mulr2n -mulrnDl double0 => /eqP zs0.
case/eqP: ne; apply: (cls _ _ (if 0 <= dot (L z) (L y') then 0 else y')) => //.
by move: zs0; rewrite /s; case: ifP => _ /eqP; rewrite addr_eq0 => /eqP ->; rewrite ?opprK ?mul0rn ?addr0 // mulr2n addKr.
Qed.

Lemma keptP y : y \in pm <-> only_shortest y.
Proof.
split; last exact: only_kept.
rewrite mem_cat mem_opp => /orP[/kept_only //|/kept_only [n2 os]]; split=> [w e|w].
  by apply: (n2 (- w)); rewrite e mulNrn.
move=> h; have := os (- w); have -> : - y + (- w) *+ 2 = - (y + w *+ 2) by rewrite mulNrn opprD.
by rewrite !qN opprK => /(_ h) [/oppr_inj ->|/eqP]; [left | rewrite eqr_oppLR => /eqP ->; right].
Qed.
End Criterion.

(* ---- symmetries of the lattice permute the vectors that are kept ---- *)
Section Isometry.
Variables (F : rcfType) (d : nat).
Implicit Types (R : 'M[F]_d) (u v : 'rV[F]_d).
Definition orthogonal R := R *m R^T = 1%:M.
Lemma orthogonalC R : orthogonal R -> R^T *m R = 1%:M. Proof. exact: mulmx1C. Qed.
Lemma dot_act R u v : orthogonal R -> dot (act R u) (act R v) = dot u v.
Proof.
move=> /orthogonalC o; have dE (x y : 'rV[F]_d) : dot x y = (x *m y^T) 0 0 by rewrite mxE; apply: eq_bigr => j _; rewrite mxE.
by rewrite !dE /act trmx_mul trmxK mulmxA -(mulmxA u) o mulmx1.
Qed.
Lemma actN R v : act R (- v) = - act R v. Proof. exact: mulNmx. Qed.
Lemma actZ R a v : act R (a *: v) = a *: act R v. Proof. by rewrite /act scalemxAl. Qed.
Lemma act_opp v : act (- 1%:M) v = - v. Proof. by rewrite /act linearN /= trmx1 mulmxN mulmx1. Qed.
Lemma act_tr R v : orthogonal R -> act R (act R^T v) = v.
Proof. by move=> o; rewrite /act trmxK -mulmxA o mulmx1. Qed.
Lemma act_inj R : orthogonal R -> injective (act R).
Proof. by move=> /orthogonalC o v w e; rewrite -[v]mulmx1 -[w]mulmx1 -o !mulmxA -/(act R v) e. Qed.
Lemma orthogonal_mul R R' : orthogonal R -> orthogonal R' -> orthogonal (R *m R').
Proof. by move=> o o'; rewrite /orthogonal trmx_mul mulmxA -(mulmxA R) o' mulmx1. Qed.
Lemma orthogonalN1 : orthogonal (- 1%:M).
Proof. by rewrite /orthogonal linearN /= trmx1 mulmxN mulmx1 opprK. Qed.

(* up to the sign *)
Definition pms (s : seq 'rV[F]_d) := s ++ [seq - v | v <- s].
Lemma mem_pms s v : (v \in pms s) = (v \in s) || (- v \in s).
Proof. by rewrite mem_cat mem_opp_row. Qed.
Lemma pmsN s v : (- v \in pms s) = (v \in pms s).
Proof. by rewrite !mem_pms opprK orbC. Qed.

Lemma check_bravaisP n s (gens : seq (pge F d n)) : uniq (pms s) -> (forall g, List.In g gens -> orthogonal (pR g)) ->
  check_bravais_symmetry s gens <-> forall g, List.In g gens -> forall v, v \in s -> act (pR g) v \in pms s.
Proof.
move=> u o; rewrite /check_bravais_symmetry -/(pms s); split.
  elim: gens {o} => //= g gens IH /andP[/andP[_ /allP h] h'] g' [<-|/(IH h') //] v vs.
  by apply: h; apply: map_f; rewrite mem_pms vs.
elim: gens o => //= g gens IH o h; rewrite IH ?andbT; first last.
- by move=> g' gg; apply: h; right.
- by move=> g' gg; apply: o; right.
have og := o g (or_introl erefl).
have sub : {subset [seq act (pR g) v | v <- pms s] <= pms s}.
  move=> v /mapP[w + ->]; rewrite mem_pms => /orP[|] ws; first by apply: h ws; left.
  by rewrite -pmsN -actN; apply: h ws; left.
apply/andP; split; last by apply/allP.
have u' : uniq [seq act (pR g) v | v <- pms s] by rewrite (map_inj_uniq (act_inj og)).
have [|_ e] := uniq_min_size u' sub; first by rewrite size_map.
by apply/allP => v; rewrite -e.
Qed.
End Isometry.

Section Permute.
Variables (F : rcfType) (m : nat) (rnd : F -> int).
Hypothesis rndP : forall x, `|x - (rnd x)%:~R| <= 2^-1.
Variable P : 'M[F]_m.+1.
Hypothesis fP : row_free P.
Local Notation L := (lattice_point P).
Variable zs : seq 'rV[int]_m.+1.
Hypothesis szs : shortest_set P zs.
Local Notation K := (discard P 0 [::] zs).
Definition neighbors := [seq L k | k <- K].
Lemma L_inj : injective L.
Proof. by move=> x y e; apply/eqP; rewrite -subr_eq0 -(L_eq0 fP) LB e subrr. Qed.
Lemma mem_neighbors k : (L k \in pms neighbors) = (k \in K ++ [seq - y | y <- K]).
Proof.
have i := L_inj.
by rewrite mem_pms -LN /neighbors !(mem_map i) mem_cat mem_opp.
Qed.
Lemma neighborsP v : v \in pms neighbors -> exists2 k, v = L k & k \in K ++ [seq - y | y <- K].
Proof.
rewrite mem_pms => /orP[/mapP[k kK e]|/mapP[k kK e]]; first by exists k; rewrite // mem_cat kK.
by exists (- k); rewrite ?LN -?e ?opprK // mem_cat mem_opp opprK kK orbT.
Qed.

Lemma symmetry_permutes R v : orthogonal R -> preserves P R -> v \in pms neighbors -> act R v \in pms neighbors.
Proof.
move=> o pr /neighborsP[k -> /(keptP rndP fP szs) [n2 os]].
have [k' ek] : in_lattice P (act R (L k)) by have [h _] := pr (L k); apply: h; exists k.
have back w' : exists w, act R (L w) = L w'.
  have [w e] : in_lattice P (act R^T (L w')) by have [_ h] := pr (act R^T (L w')); apply: h; rewrite act_tr //; exists w'.
  by exists w; rewrite -e act_tr.
have i := L_inj.
rewrite ek mem_neighbors; apply/(keptP rndP fP szs); split=> w'; have [w ew] := back w'.
  move=> e; apply: (n2 w); apply: i; apply: (act_inj o).
  by rewrite ek e mulr2n LD -ew -actD -LD -mulr2n.
have e : L (k' + w' *+ 2) = act R (L (k + w *+ 2)) by rewrite !mulr2n !LD !actD ek ew.
rewrite e dot_act // -ek dot_act // => /os [h|h]; [left | right]; by apply: i; rewrite e h ?LN ?LN ?actN ek.
Qed.

Lemma uniq_neighbors : uniq (pms neighbors).
Proof.
have [sub _] := discard_sub P 0 [::] zs.
have -> : pms neighbors = [seq L k | k <- K ++ [seq - y | y <- K]].
  by rewrite map_cat /pms; congr (_ ++ _); rewrite /neighbors; elim: (K) => [|y s IH] //=; rewrite IH LN.
by rewrite (map_inj_uniq L_inj) (uniq_sub_pm (uniq_pm fP szs) sub).
Qed.
Lemma permutes_preserves R : orthogonal R -> (forall v, v \in neighbors -> act R v \in pms neighbors) -> preserves P R.
Proof.
move=> o h; have [sub _] := discard_sub P 0 [::] zs; pose g : pge F m.+1 0 := Pge R false false None false.
have gen := kept_generates fP rndP szs (uniq_sub_pm (uniq_pm fP szs) sub) (reduced_reason fP szs).
apply: (@check_preserves _ _ _ P K [:: g] g fP gen); last by left.
by apply/(check_bravaisP uniq_neighbors) => g' [<-|//].
Qed.
(* the point group is finite *)
Lemma finite_symmetries : exists2 S : seq 'M[F]_m.+1, uniq S & forall R, R \in S <-> orthogonal R /\ preserves P R.
Proof.
have [sub _] := discard_sub P 0 [::] zs.
have := kept_generates fP rndP szs (uniq_sub_pm (uniq_pm fP szs) sub) (reduced_reason fP szs).
set V := _ ++ _ => gen.
have /fin_all_exists [f fE] : forall i : 'I_m.+1, exists f : 'rV[int]_m.+1 -> int, delta_mx 0 i = \sum_(y <- V) y *~ f y.
  by move=> i; apply: gen.
pose cand (s : seq 'rV[F]_m.+1) : 'M[F]_m.+1 :=
  (invmx P *m \matrix_i \sum_(p <- zip V s) p.2 *~ f i p.1)^T.
pose S := [seq R <- undup [seq cand s | s <- PropPointGroups.words (pms neighbors) (size V)] |
  (R *m R^T == 1%:M) && all (fun v => act R v \in pms neighbors) neighbors].
exists S => [|R]; first by rewrite filter_uniq ?undup_uniq.
rewrite mem_filter mem_undup; split=> [/andP[/andP[/eqP o /allP h] _]|[o pr]].
  by split=> //; exact: permutes_preserves.
have h v : v \in pms neighbors -> act R v \in pms neighbors by exact: symmetry_permutes.
apply/andP; split.
  by apply/andP; split; [exact/eqP | apply/allP => v vn; apply: h; rewrite mem_pms vn].
apply/mapP; exists [seq act R (L y) | y <- V].
  rewrite PropPointGroups.mem_words size_map eqxx; apply/allP => v /mapP[y yV ->].
  by apply: h; rewrite mem_neighbors.
have uP : P \in unitmx by rewrite -row_free_unit.
rewrite /cand; apply: trmx_inj; rewrite trmxK; apply: (can_inj (mulKmx uP)); rewrite mulKVmx //.
apply/row_matrixP => i; rewrite rowK row_mul.
have -> : row i P = L (delta_mx 0 i) by rewrite /lattice_point map_delta_mx -rowE.
rewrite {1}fE -/(act R _); elim: (V) => [|y s IH]; first by rewrite !big_nil L0 /act mul0mx.
by rewrite /= !big_cons LD actD IH Lz act_z.
Qed.
End Permute.

(* ---- two dimensions ---- *)
Section Plane.
Variable F : rcfType.
Let Rg := [comRingType of F].
Add Ring Rr2 : (R_ring Rg).
Implicit Types (R : 'M[F]_2) (a b c u v w : 'rV[F]_2).
Local Notation q v := (dot v v).

Lemma dot2 u v : dot u v = u 0 0 * v 0 0 + u 0 1 * v 0 1.
Proof. by rewrite /dot !big_ord_recl big_ord0 addr0; congr (_ + u 0 _ * v 0 _); apply: val_inj. Qed.
Lemma row2 u v : u 0 0 = v 0 0 -> u 0 1 = v 0 1 -> u = v.
Proof. by move=> e0 e1; apply/rowP => -[[|[|i]] p] //; [move: e0|move: e1]; congr (u 0 _ = v 0 _); apply: val_inj. Qed.

(* no three orthogonal vectors *)
Lemma orth3 a u v : a != 0 -> dot a u = 0 -> dot a v = 0 -> dot u v = 0 -> u = 0 \/ v = 0.
Proof.
move=> a0 au av uv.
have z : u 0 0 * v 0 1 - u 0 1 * v 0 0 = 0.
  have e0 : a 0 0 * (u 0 0 * v 0 1 - u 0 1 * v 0 0) = 0.
    rewrite [LHS](_ : _ = dot a u * v 0 1 - u 0 1 * dot a v); last by rewrite !dot2; ringm Rg.
    by rewrite au av mul0r mulr0 subr0.
  have e1 : a 0 1 * (u 0 0 * v 0 1 - u 0 1 * v 0 0) = 0.
    rewrite [LHS](_ : _ = u 0 0 * dot a v - dot a u * v 0 0); last by rewrite !dot2; ringm Rg.
    by rewrite au av mul0r mulr0 subr0.
  apply/eqP; apply: contraNT a0 => nz; apply/eqP; apply: row2; rewrite mxE; apply/eqP.
    by move/eqP: e0; rewrite mulf_eq0 (negPf nz) orbF.
  by move/eqP: e1; rewrite mulf_eq0 (negPf nz) orbF.
have : q u * q v = 0.
  rewrite [LHS](_ : _ = dot u v ^+ 2 + (u 0 0 * v 0 1 - u 0 1 * v 0 0) ^+ 2); last by rewrite !dot2 !expr2; ringm Rg.
  by rewrite uv z expr0n addr0.
by move/eqP; rewrite mulf_eq0 !dot_eq0 => /orP[/eqP ->|/eqP ->]; [left | right].
Qed.
Lemma perp2 a b c : a != 0 -> dot a b = 0 -> dot a c = 0 -> q b = q c -> b = c \/ b = - c.
Proof.
move=> a0 ab ac e; have [|||h|h] := @orth3 a (b - c) (b + c) a0.
- by rewrite dotC dotBl !(dotC _ a) ab ac subr0.
- by rewrite dotDr ab ac addr0.
- by rewrite dotBl !dotDr (dotC c b) opprD addrA addrK e subrr.
- by left; apply/eqP; rewrite -subr_eq0 h.
- by right; apply/eqP; rewrite -addr_eq0 h.
Qed.
(* matrices are determined by their action on two orthogonal vectors *)
Lemma act_ext a b (A A' : 'M[F]_2) : a != 0 -> b != 0 -> dot a b = 0 -> act A a = act A' a -> act A b = act A' b -> A = A'.
Proof.
move=> a0 b0 ab ea eb; apply/row_matrixP => i; apply/eqP; rewrite -subr_eq0; apply/eqP.
have z v : act A v = act A' v -> dot v (row i A - row i A') = 0.
  move=> e; have := congr1 (fun x : 'rV_2 => x 0 i) e; rewrite !mxE => /eqP; rewrite -subr_eq0 => /eqP <-.
  rewrite dotC dotBl; congr (_ - _); apply: eq_bigr => j _; rewrite !mxE mulrC //.
by have [/eqP|//] := orth3 a0 ab (z _ ea) (z _ eb); rewrite (negPf b0).
Qed.

(* a set of matrices closed under products *)
Variable Pr : 'M[F]_2 -> Prop.
Hypothesis PrM : forall A A', Pr A -> Pr A' -> Pr (A *m A').
Hypothesis PrN : Pr (- 1%:M).
Lemma Pr1 : Pr 1%:M. Proof. by have := PrM PrN PrN; rewrite mulmxN mulmx1 opprK. Qed.
Lemma PrNeg A : Pr A -> Pr (- A). Proof. by move/(PrM PrN); rewrite mulNmx mul1mx. Qed.

(* reflections *)
Definition refl a := reflection (normalize a).
Lemma act_refl a v : a != 0 -> act (refl a) v = v - ((dot v a *+ 2) / q a) *: a.
Proof.
move=> a0; have q0 : 0 < q a by rewrite lt_def dot_eq0 a0 dot_ge0.
rewrite /act /refl PropFactories.reflection_tr /reflection mulmxBr mulmx1 -scalemxAr mulmxA.
have -> : v *m (normalize a)^T = (dot v (normalize a))%:M by exact: PropFactories.dotE.
rewrite mul_scalar_mx /normalize /Factories.norm dotC dotZl scalerA scalerA; congr (_ - _ *: _).
have -> : \sum_i a 0 i ^+ 2 = q a by apply: eq_bigr => i _; rewrite expr2.
have e : (Num.sqrt (q a))^-1 * (Num.sqrt (q a))^-1 = (q a)^-1 by rewrite -invfM -expr2 sqr_sqrtr ?ltW.
rewrite (dotC a) -mulr_natl mulrAC -e; move: (_^-1) (dot v a) => s t; ringm Rg.
Qed.
Lemma refl_orth a : a != 0 -> orthogonal (refl a).
Proof. by move=> a0; rewrite /orthogonal PropFactories.reflection_tr PropFactories.reflectionK //; apply: PropFactories.normalize_unit. Qed.
Lemma refl_axis a : a != 0 -> act (refl a) a = - a.
Proof.
move=> a0; have q0 : q a != 0 by rewrite dot_eq0.
by rewrite act_refl // -mulr_natl -mulrA mulfV // mulr1 scaler_nat mulr2n opprD addrA subrr add0r.
Qed.
Lemma refl_perp a v : a != 0 -> dot v a = 0 -> act (refl a) v = v.
Proof. by move=> a0 e; rewrite act_refl // e mul0rn mul0r scale0r subr0. Qed.

Definition pm_eq u v := u = v \/ u = - v.
Lemma in_diag a b R : a != 0 -> b != 0 -> dot a b = 0 -> Pr (refl a) -> Pr (refl b) ->
  pm_eq (act R a) a -> pm_eq (act R b) b -> Pr R.
Proof.
move=> a0 b0 ab pa pb; have ba : dot b a = 0 by rewrite dotC.
have one v : act (1%:M) v = v :> 'rV[F]_2 by rewrite /act trmx1 mulmx1.
have E A : act R a = act A a -> act R b = act A b -> R = A by apply: act_ext.
case=> ea [] eb.
- by rewrite (E 1%:M) ?one //; exact: Pr1.
- by rewrite (E (refl b)) ?refl_axis ?(refl_perp b0).
- by rewrite (E (refl a)) ?refl_axis ?(refl_perp a0).
- by rewrite (E (- 1%:M)) ?act_opp.
Qed.
Lemma line_perp a b R : orthogonal R -> a != 0 -> dot a b = 0 -> pm_eq (act R a) a -> pm_eq (act R b) b.
Proof.
move=> o a0 ab ea; apply: (@perp2 a) => //; last exact: dot_act.
have : dot (act R a) (act R b) = 0 by rewrite dot_act.
by case: ea => ->; rewrite ?dotNl // => /eqP; rewrite oppr_eq0 => /eqP.
Qed.

(* rotations *)
Definition quarter v : 'rV[F]_2 := \row_i (if i == 0 then - v 0 1 else v 0 0).
Lemma quarter0 v : quarter v 0 0 = - v 0 1. Proof. by rewrite mxE. Qed.
Lemma quarter1 v : quarter v 0 1 = v 0 0. Proof. by rewrite mxE. Qed.
Lemma act_rotation2 (t s : F) v : act (rotation2 t s) v = t *: v + s *: quarter v.
Proof.
by apply: row2; rewrite !mxE !big_ord_recl big_ord0 !mxE /= addr0;
  rewrite (_ : lift ord0 ord0 = 1 :> 'I_2); try (by apply: val_inj); move: (v 0 0) (v 0 1) => x y; ringm Rg.
Qed.
Lemma quarterK v : quarter (quarter v) = - v.
Proof. by apply: row2; rewrite !(quarter0, quarter1) mxE. Qed.
Lemma quarter_perp v : dot v (quarter v) = 0.
Proof. by rewrite dot2 quarter0 quarter1; move: (v 0 0) (v 0 1) => x y; ringm Rg. Qed.
Lemma q_quarter v : q (quarter v) = q v.
Proof. by rewrite !dot2 quarter0 quarter1 mulrNN addrC. Qed.
Lemma rotation2_orth (t s : F) : t ^+ 2 + s ^+ 2 = 1 -> orthogonal (rotation2 t s).
Proof.
move=> e; apply/matrixP => i j; rewrite !mxE !big_ord_recl big_ord0 !mxE /= addr0 -e.
by case: i j => [[|[|i]] p] [[|[|j]] p'] //=; rewrite ?mulr1n ?mulr0n; ringm Rg.
Qed.

(* the superbase: three vectors with sum 0 and obtuse angles *)
Definition superbase u v w := [/\ u + v + w = 0, dot u v < 0, dot u w < 0 & dot v w < 0].
Lemma superbaseC u v w : superbase u v w -> superbase v u w.
Proof. by case=> e uv uw vw; split; rewrite ?(addrC v u) ?(dotC v u). Qed.
Lemma superbaseR u v w : superbase u v w -> superbase v w u.
Proof. by case=> e uv uw vw; split; rewrite ?(dotC _ u) // addrC addrA. Qed.
Lemma super_q u v w : superbase u v w -> [/\ q u = - dot u v - dot u w, q v = - dot u v - dot v w & q w = - dot u w - dot v w].
Proof.
case=> e _ _ _; have eu : u = - v - w by apply/eqP; rewrite -subr_eq0 !opprD !opprK addrA e.
have z x : dot x u + dot x v + dot x w = 0 by rewrite -!dotDr e dot0r.
split; apply/eqP; rewrite -subr_eq0; apply/eqP.
- by rewrite -(z u); move: (q u) (dot u v) (dot u w) => x y t; ringm Rg.
- by rewrite -(z v) (dotC v u); move: (q v) (dot u v) (dot v w) => x y t; ringm Rg.
- by rewrite -(z w) !(dotC w); move: (q w) (dot u w) (dot v w) => x y t; ringm Rg.
Qed.

Lemma six_square (s : F) v : s ^+ 2 = 3%:R / 4%:R ->
  act (rotation2 2^-1 s) (act (rotation2 2^-1 s) v) = act (rotation2 2^-1 s) v - v.
Proof.
move=> es; have {}es : s ^+ 2 = 3%:R * (2^-1 * 2^-1) by rewrite es -invfM -natrM.
have e2h : (2^-1 : F) + 2^-1 = 1 by rewrite -mulr2n -mulr_natr mulVf ?pnatr_eq0.
rewrite !act_rotation2.
have eC : 2^-1 *: (2^-1 *: v + s *: quarter v) + s *: quarter (2^-1 *: v + s *: quarter v) =
    (2^-1 * 2^-1 - s ^+ 2) *: v + (s * (2^-1 + 2^-1)) *: quarter v.
  by apply: row2; rewrite !mxE /= ?mxE; move: (v 0 0) (v 0 1) (2^-1) => y z t; rewrite expr2; ringm Rg.
rewrite eC e2h mulr1 es addrAC; congr (_ + _).
rewrite -{3}(scale1r v) -scalerBl; congr (_ *: _); move: (2^-1) e2h => t e2h; rewrite -[RHS]mulr1 -[in RHS]e2h; ringm Rg.
Qed.
Ltac vr u v := apply: row2; rewrite !mxE; move: (u 0 0) (u 0 1) (v 0 0) (v 0 1) => ? ? ? ?;
  apply/eqP; rewrite -subr_eq0; apply/eqP; ringm Rg.
(* three vectors of the same length: the sixfold rotation permutes the lines *)
Lemma sixfold u v w (s : F) : superbase u v w -> q u = q v -> q u = q w -> s ^+ 2 = 3%:R / 4%:R ->
  let C6 := rotation2 2^-1 s in
  [/\ act C6 u = - w, act C6 w = - v & act C6 v = - u] \/ [/\ act C6 u = - v, act C6 v = - w & act C6 w = - u].
Proof.
move=> sb e1 e2 es C6; have [qu qv qw] := super_q sb; case: sb => s0 uv uw vw.
have u0 : u != 0 by apply: contraTneq uv => ->; rewrite dot0l ltxx.
have ew : w = - u - v by apply/eqP; rewrite -subr_eq0 opprD !opprK addrC s0.
have e2h : (2^-1 : F) + 2^-1 = 1 by rewrite -mulr2n -mulr_natr mulVf ?pnatr_eq0.
have es' : s ^+ 2 = 3%:R * (2^-1 * 2^-1) by rewrite es -invfM -natrM.
have duv : dot u v = - (2^-1 * q u).
  have e : dot u v + dot u v = - q u.
    have eE : dot u w = dot v w by move: e1; rewrite qu qv => /addrI /oppr_inj.
    have eE' : dot u v = dot v w by move: e2; rewrite qu qw addrC => /addrI /oppr_inj.
    by rewrite qu eE -eE' opprD !opprK.
  by rewrite -mulrN -e mulrDr -mulrDl e2h mul1r.
have C6E x : act C6 x = 2^-1 *: x + s *: quarter x by exact: act_rotation2.
have C62 x : act C6 (act C6 x) = act C6 x - x by apply: six_square.
have [|||h|h] := @perp2 u (v + 2^-1 *: u) (s *: quarter u) u0.
- by rewrite dotDr dotZr duv addNr.
- by rewrite dotZr quarter_perp mulr0.
- rewrite dotDl !dotDr !dotZl !dotZr (dotC v u) duv -e1 q_quarter [in RHS]mulrA -[in RHS]expr2 es'.
  rewrite [LHS](_ : _ = (1 - 2^-1 * 2^-1) * q u); last by move: (q u) (2^-1) => y t; ringm Rg.
  congr (_ * _); move: (2^-1) e2h => t e2h; rewrite [LHS](_ : _ = (t + t) * (t + t) - t * t); last by rewrite e2h mulr1.
  ringm Rg.
- left.
  have cu : act C6 u = - w.
    rewrite C6E -h ew; apply/eqP; rewrite opprD !opprK addrCA -scalerDl e2h scale1r addrC //.
  have cv : act C6 v = - u.
    have -> : v = act C6 u - u by rewrite cu ew; vr u v.
    by rewrite actD actN C62 addrAC subrr add0r.
  by split=> //; rewrite ew actD !actN cu cv ew; vr u v.
- right.
  have cu : act C6 u = - v.
    have h' : s *: quarter u = - (v + 2^-1 *: u) by rewrite h opprK.
    by rewrite C6E h' ; vr u v.
  have cv : act C6 v = - w.
    have -> : v = - act C6 u by rewrite cu opprK.
    by rewrite actN C62 cu ew; vr u v.
  by split=> //; rewrite ew actD !actN cu cv ew; vr u v.
Qed.

Lemma pm_sym u v : pm_eq u v -> pm_eq v u. Proof. by case=> ->; [left | right; rewrite opprK]. Qed.
Lemma pm_trans u v w : pm_eq u v -> pm_eq v w -> pm_eq u w.
Proof. by case=> -> [->|->]; rewrite ?opprK; [left | right | right | left]. Qed.
Lemma pm_act R u v : pm_eq u v -> pm_eq (act R u) (act R v).
Proof. by case=> ->; [left | right; rewrite actN]. Qed.
Lemma pm_q u v : pm_eq u v -> q u = q v. Proof. by case=> ->; rewrite ?dotNl ?dotNr ?opprK. Qed.
Lemma in_pms (s : seq 'rV[F]_2) v : reflect (exists2 w, w \in s & pm_eq v w) (v \in pms s).
Proof.
rewrite mem_pms; apply: (iffP orP) => [[h|h]|[w ws [->|->]]]; rewrite ?opprK; [exists v|exists (- v)|left|right] => //.
  by left.
by right; rewrite opprK.
Qed.
Lemma pm_line R a b : pm_eq a b -> pm_eq (act R a) a -> pm_eq (act R b) b.
Proof. by move=> ab ea; apply: pm_trans (pm_act R (pm_sym ab)) (pm_trans ea ab). Qed.

(* two orthogonal vectors *)
Section Rectangle.
Variables a b : 'rV[F]_2.
Hypotheses (a0 : a != 0) (b0 : b != 0) (ab : dot a b = 0).
Let ba : dot b a = 0. Proof. by rewrite dotC. Qed.
Lemma rect_refl v : v \in [:: a; b] -> act (refl a) v \in pms [:: a; b] /\ act (refl b) v \in pms [:: a; b].
Proof.
rewrite !inE => /orP[]/eqP ->; rewrite ?refl_axis ?(refl_perp a0) ?(refl_perp b0) //; rewrite !eqxx ?orbT //.
Qed.
Lemma rectangle R : orthogonal R -> q a != q b -> (forall v, v \in [:: a; b] -> act R v \in pms [:: a; b]) ->
  Pr (refl a) -> Pr (refl b) -> Pr R.
Proof.
move=> o ne h pa pb; have ea : pm_eq (act R a) a.
  have /in_pms[w] := h a (mem_head _ _); rewrite !inE => /orP[]/eqP -> // e.
  by case/eqP: ne; rewrite -(pm_q e) dot_act.
exact: (in_diag a0 b0 ab pa pb ea (line_perp o a0 ab ea)).
Qed.
Variable s : F.
Hypotheses (es : s ^+ 2 = 1) (e : q a = q b).
Local Notation C4 := (rotation2 0 s).
Lemma fourfold : pm_eq (act C4 a) b /\ pm_eq (act C4 b) a.
Proof.
have CE v : act C4 v = s *: quarter v by rewrite act_rotation2 scale0r add0r.
have s1 : s = 1 \/ s = -1 by move/eqP: es; rewrite sqrf_eq1 => /orP[]/eqP ->; [left | right].
have sE v : pm_eq (s *: v) v by case: s1 => ->; rewrite ?scale1r ?scaleN1r; [left | right].
have ca : pm_eq (quarter a) b.
  by apply: (@perp2 a) => //; rewrite ?quarter_perp ?q_quarter.
have qN v : quarter (- v) = - quarter v by apply: row2; rewrite !(quarter0, quarter1) !mxE ?quarter0 ?quarter1.
have pmq u v : pm_eq u v -> pm_eq (quarter u) (quarter v) by case=> ->; rewrite ?qN; [left | right].
split; rewrite CE; apply: pm_trans (sE _) _ => //.
by apply: pm_trans (pmq _ _ (pm_sym ca)) _; rewrite quarterK; right.
Qed.
Lemma square_rot v : v \in [:: a; b] -> act C4 v \in pms [:: a; b].
Proof.
have [ca cb] := fourfold; rewrite 2!inE => /orP[]/eqP ->; apply/in_pms; [exists b|exists a] => //; rewrite !inE eqxx ?orbT //.
Qed.
Lemma square_complete R : orthogonal R -> (forall v, v \in [:: a; b] -> act R v \in pms [:: a; b]) ->
  Pr (refl a) -> Pr (refl b) -> Pr C4 -> Pr R.
Proof.
move=> o h pa pb p4; have [ca cb] := fourfold.
have /in_pms[w + ea] := h a (mem_head _ _); rewrite !inE => /orP[]/eqP ew; rewrite {}ew in ea.
  exact: (in_diag a0 b0 ab pa pb ea (line_perp o a0 ab ea)).
have oC : orthogonal C4 by apply: rotation2_orth; rewrite es expr0n add0r.
have ea' : pm_eq (act (C4 *m R) a) a by rewrite act_mul; apply: pm_trans (pm_act _ ea) cb.
have p : Pr (C4 *m R) := in_diag a0 b0 ab pa pb ea' (line_perp (orthogonal_mul oC o) a0 ab ea').
have -> : R = - (C4 *m (C4 *m R)).
  have C42 : C4 *m C4 = - 1%:M.
    have H v : act (C4 *m C4) v = act (- 1%:M) v.
      rewrite act_mul act_opp !act_rotation2 !scale0r !add0r -scaleN1r -es.
      by apply: row2; rewrite !mxE /= ?mxE /= expr2; move: (v 0 0) (v 0 1) => ? ?; ringm Rg.
    exact: (@act_ext a b).
  by rewrite mulmxA C42 mulNmx mul1mx opprK.
by apply: PrNeg; apply: PrM.
Qed.
End Rectangle.

(* a superbase *)
Section Hexagon.
Variables (u v w x y z : 'rV[F]_2).
Hypotheses (sb : superbase u v w) (ux : pm_eq x u) (vy : pm_eq y v) (wz : pm_eq z w).
Hypothesis e : q u = q v.
Lemma super_neq : [/\ u + v != 0, u - v != 0 & w = - (u + v)].
Proof.
case: sb => s0 uv uw _; have ew : w = - (u + v) by apply/eqP; rewrite -subr_eq0 opprK addrC s0.
split=> //.
  by apply: contraTneq uw => h; rewrite ew h oppr0 dot0r ltxx.
by apply: contraTneq uv => /eqP; rewrite subr_eq0 => /eqP ->; rewrite -leNgt dot_ge0.
Qed.
Lemma axes : [/\ x + y != 0, x - y != 0, dot (x + y) (x - y) = 0 & pm_eq z (x + y) \/ pm_eq z (x - y)].
Proof.
have [n1 n2 ew] := super_neq.
have exy : q x = q y by rewrite (pm_q ux) (pm_q vy).
have pm : (pm_eq (x + y) (u + v) /\ pm_eq (x - y) (u - v)) \/ (pm_eq (x + y) (u - v) /\ pm_eq (x - y) (u + v)).
  case: ux vy => -> [] ->; [left | right | right | left]; split; by [left; vr u v | right; vr u v].
have n0 (c c' : 'rV[F]_2) : pm_eq c c' -> c' != 0 -> c != 0 by case=> ->; rewrite ?oppr_eq0.
have zE : pm_eq z (u + v) by apply: pm_trans wz _; rewrite ew; right.
split.
- by case: pm => -[h _]; apply: n0 h _.
- by case: pm => -[_ h]; apply: n0 h _.
- by rewrite dotDl !(dotC _ (x - y)) !dotBl (dotC y x) exy; move: (q y) (dot x y) => ? ?; ringm Rg.
- by case: pm => -[h h']; [left | right]; apply: pm_trans zE (pm_sym _).
Qed.
Let a := x + y.
Let b := x - y.
Let a0 : a != 0. Proof. by case: axes. Qed.
Let b0 : b != 0. Proof. by case: axes. Qed.
Let ab : dot a b = 0. Proof. by case: axes. Qed.
Let ba : dot b a = 0. Proof. by rewrite dotC ab. Qed.
Let zab : pm_eq z a \/ pm_eq z b. Proof. by case: axes. Qed.
Lemma mirror_swap : [/\ act (refl a) x = - y, act (refl a) y = - x, act (refl b) x = y, act (refl b) y = x &
  pm_eq (act (refl a) z) z /\ pm_eq (act (refl b) z) z].
Proof.
have ra : act (refl a) a = - a by exact: refl_axis. have rb : act (refl b) b = - b by exact: refl_axis.
have pa : act (refl a) b = b by exact: refl_perp. have pb : act (refl b) a = a by exact: refl_perp.
have ex : x = 2^-1 *: (a + b) by rewrite /a /b addrACA subrr addr0 -mulr2n -scaler_nat scalerA mulVf ?pnatr_eq0 // scale1r.
have ey : y = 2^-1 *: (a - b) by rewrite (_ : a - b = y *+ 2) -?scaler_nat ?scalerA; last (by rewrite /a /b mulr2n; vr x y); rewrite mulVf ?pnatr_eq0 // scale1r.
split; last first.
- by case: zab => h; split; apply: (pm_line (pm_sym h)); rewrite ?ra ?rb ?pa ?pb; by [left | right].
- by rewrite ey ex actZ actD actN rb pb opprK.
- by rewrite ex ey actZ actD rb pb.
- by rewrite ey ex actZ actD actN ra pa -scalerN (opprD a b).
- by rewrite ex ey actZ actD ra pa -scalerN (opprB a b) (addrC b).
Qed.
Lemma hex_refl t : t \in [:: x; y; z] -> act (refl a) t \in pms [:: x; y; z] /\ act (refl b) t \in pms [:: x; y; z].
Proof.
have [ax ay bx by' [az bz]] := mirror_swap.
by rewrite 3!inE => /or3P[]/eqP ->; split; apply/in_pms;
  [exists y|exists y|exists x|exists x|exists z|exists z]; rewrite ?inE ?eqxx ?orbT // ?ax ?ay ?bx ?by'; by [left | right].
Qed.
Lemma hex_line R : orthogonal R -> pm_eq (act R z) z -> Pr (refl a) -> Pr (refl b) -> Pr R.
Proof.
move=> o ez pa pb; case: zab => h.
  have ea := pm_line h ez; exact: (in_diag a0 b0 ab pa pb ea (line_perp o a0 ab ea)).
have eb := pm_line h ez; exact: (in_diag a0 b0 ab pa pb (line_perp o b0 ba eb) eb).
Qed.
Lemma hex_pair R : orthogonal R -> q w != q u -> (forall t, t \in [:: x; y; z] -> act R t \in pms [:: x; y; z]) ->
  Pr (refl a) -> Pr (refl b) -> Pr R.
Proof.
move=> o ne h; apply: hex_line => //.
have /in_pms[t] := h z (mem_last x [:: y; z]); rewrite 3!inE => ht et.
have qz : q t = q w by rewrite -(pm_q et) dot_act // (pm_q wz).
case/or3P: ht => /eqP ht; rewrite {}ht in et qz => //; case/eqP: ne; rewrite -qz.
  exact: pm_q.
by rewrite (pm_q vy) -e.
Qed.
Section Six.
Variable s : F.
Hypotheses (es : s ^+ 2 = 3%:R / 4%:R) (e' : q u = q w).
Local Notation C6 := (rotation2 2^-1 s).
Lemma six_orth : orthogonal C6.
Proof. by apply: rotation2_orth; rewrite es expr2 -invfM -natrM -[X in X + _]mul1r -mulrDl -(natrD _ 1 3) mulfV ?pnatr_eq0. Qed.
Lemma six_lines : [/\ pm_eq (act C6 x) z, pm_eq (act C6 z) y & pm_eq (act C6 y) x] \/
  [/\ pm_eq (act C6 x) y, pm_eq (act C6 y) z & pm_eq (act C6 z) x].
Proof.
have L (c c' t t' : 'rV[F]_2) : pm_eq c t -> pm_eq c' t' -> act C6 t = - t' -> pm_eq (act C6 c) c'.
  by move=> h h' E; apply: pm_trans (pm_act _ h) _; rewrite E; apply: pm_trans (pm_sym h'); right.
have [[h1 h2 h3]|[h1 h2 h3]] := sixfold sb e e' es; [left | right].
  by split; [exact: L h1|exact: L h2|exact: L h3].
by split; [exact: L h1|exact: L h2|exact: L h3].
Qed.
Lemma hex_rot t : t \in [:: x; y; z] -> act C6 t \in pms [:: x; y; z].
Proof.
rewrite 3!inE => ht; apply/in_pms.
by case: six_lines => -[h1 h2 h3]; case/or3P: ht => /eqP ->;
  [exists z|exists x|exists y|exists y|exists z|exists x]; rewrite // ?inE ?eqxx ?orbT.
Qed.
Lemma hex_complete R : orthogonal R -> (forall t, t \in [:: x; y; z] -> act R t \in pms [:: x; y; z]) ->
  Pr (refl a) -> Pr (refl b) -> Pr C6 -> Pr R.
Proof.
move=> o h pa pb p6.
have back A : Pr (C6 *m A) -> Pr A.
  move=> pA; have -> : A = - (C6 *m (C6 *m (C6 *m A))); last by apply: PrNeg; do 2![apply: PrM => //].
  have C6E v' : act (C6 *m (C6 *m (C6 *m A))) v' = act (- A) v'.
    have C3 t : act C6 (act C6 (act C6 t)) = - t.
      by rewrite !six_square // addrAC subrr add0r.
    by rewrite !act_mul C3 /act linearN mulmxN.
  by rewrite (act_ext a0 b0 ab (C6E _) (C6E _)) opprK.
have step A : orthogonal A -> pm_eq (act (C6 *m A) z) z -> Pr A.
  by move=> oA h'; apply: back; apply: hex_line h' pa pb; apply: orthogonal_mul => //; exact: six_orth.
have step2 A : orthogonal A -> pm_eq (act (C6 *m (C6 *m A)) z) z -> Pr A.
  by move=> oA h'; apply: back; apply: step h'; apply: orthogonal_mul => //; exact: six_orth.
have /in_pms[t] := h z (mem_last x [:: y; z]); rewrite 3!inE => ht et.
case: six_lines => -[h1 h2 h3]; case/or3P: ht => /eqP ht; rewrite {}ht in et.
- by apply: step => //; rewrite act_mul; apply: pm_trans (pm_act _ et) h1.
- by apply: step2 => //; rewrite !act_mul; apply: pm_trans (pm_act _ (pm_act _ et)) (pm_trans (pm_act _ h3) h1).
- exact: hex_line.
- by apply: step2 => //; rewrite !act_mul; apply: pm_trans (pm_act _ (pm_act _ et)) (pm_trans (pm_act _ h1) h2).
- by apply: step => //; rewrite act_mul; apply: pm_trans (pm_act _ et) h2.
- exact: hex_line.
Qed.
End Six.
End Hexagon.

(* three vectors of different lengths *)
Lemma oblique u v w x y z R : superbase u v w -> pm_eq x u -> pm_eq y v -> pm_eq z w ->
  q u != q v -> q u != q w -> q v != q w -> orthogonal R ->
  (forall t, t \in [:: x; y; z] -> act R t \in pms [:: x; y; z]) -> Pr R.
Proof.
move=> sb ux vy wz uv uw vw o h.
have qx := pm_q ux; have qy := pm_q vy; have qz := pm_q wz.
have L t : t \in [:: x; y; z] -> pm_eq (act R t) t.
  move=> ht; have /in_pms[t' ht' et] := h t ht; have qt : q t' = q t by rewrite -(pm_q et) dot_act.
  suff E : t' = t by rewrite E in et.
  move: qt; move: ht ht'; rewrite !inE => /or3P[]/eqP -> /or3P[]/eqP -> // /eqP; rewrite ?qx ?qy ?qz => E;
  by rewrite ?(eq_sym (q v) (q u)) ?(eq_sym (q w)) ?(negPf uv) ?(negPf uw) ?(negPf vw) in E.
have Lu : pm_eq (act R u) u by apply: pm_line ux (L x _); rewrite !inE eqxx.
have Lv : pm_eq (act R v) v by apply: pm_line vy (L y _); rewrite !inE eqxx orbT.
have [s0 duv duw dvw] := sb.
have u0 : u != 0 by apply: contraTneq duv => ->; rewrite dot0l ltxx.
have qu0 : q u != 0 by rewrite dot_eq0.
pose k := dot u v / q u; pose p := v - k *: u.
have up : dot u p = 0 by rewrite /p dotC dotBl dotZl (dotC v) /k divfK // subrr.
have p0 : p != 0.
  apply/eqP => /eqP; rewrite subr_eq0 => /eqP ev.
  have ew : w = - (1 + k) *: u.
    by apply/eqP; rewrite -subr_eq0 scaleNr opprK scalerDl scale1r -ev addrC s0.
  have qp : 0 < q u by rewrite lt_def qu0 dot_ge0.
  move: (k) ev ew => c' ev ew.
  have h1 : dot u v = c' * q u by rewrite ev dotZr.
  have h2 : dot u w = - (1 + c') * q u by rewrite ew dotZr.
  have h3 : dot v w = - (c' * (1 + c')) * q u by rewrite ev ew dotZl dotZr mulrA mulrN.
  move: duv duw dvw; rewrite h1 h2 h3 !pmulr_llt0 // !oppr_lt0 => k0 k1.
  by rewrite nmulr_rgt0 // ltNge (ltW k1).
have [[e1 e2]|[e1 e2]] : (act R u = u /\ act R v = v) \/ (act R u = - u /\ act R v = - v).
  have := dot_act u v o; case: Lu Lv => -> [] ->; rewrite ?dotNl ?dotNr => E; [by left | | | by right].
    by move/eqP: E; rewrite eq_sym -addr_eq0 -mulr2n mulrn_eq0 /= lt_eqF.
  by move/eqP: E; rewrite eq_sym -addr_eq0 -mulr2n mulrn_eq0 /= lt_eqF.
- have -> : R = 1%:M; last exact: Pr1.
  have one t : act 1%:M t = t :> 'rV[F]_2 by rewrite /act trmx1 mulmx1.
  by apply: (act_ext u0 p0 up); rewrite one // /p actD actN actZ e1 e2.
- have -> : R = - 1%:M; last exact: PrN.
  by apply: (act_ext u0 p0 up); rewrite act_opp // /p actD actN actZ e1 e2 scalerN opprD.
Qed.
End Plane.

(* ---- the vectors that voronoi keeps in two dimensions ---- *)
Section Neighbors2.
Variable F : rcfType.
Let Rg := [comRingType of F].
Add Ring RrN : (R_ring Rg).
Variable rnd : F -> int.
Hypothesis rndP : forall x, `|x - (rnd x)%:~R| <= 2^-1.
Variable P : 'M[F]_2.
Hypothesis fP : row_free P.
Local Notation L := (lattice_point P).
Variable zs : seq 'rV[int]_2.
Hypothesis szs : shortest_set P zs.
Hypothesis s3 : size zs = 3%N.
Local Notation K := (discard P 0 [::] zs).
Local Notation q v := (dot v v).
Implicit Types (a b : 'rV[F]_2).

Lemma three (y1 y2 : 'rV[int]_2) : y1 \in zs -> y2 \in zs -> y1 != y2 ->
  exists w, [/\ w \in zs, uniq [:: y1; y2; w], zs =i [:: y1; y2; w] & w \in [:: y1 + y2; y1 - y2; y2 - y1; - y1 - y2]].
Proof.
move=> z1 z2 ne; have [uz par n2 cls] := szs.
have [w [v [zw ew _]]] : exists w v, [/\ w \in zs, y1 + y2 = w + v *+ 2 & true].
  have [[v e]|[w [v [zw e _]]]] := par (y1 + y2); last by exists w, v.
  by case/eqP: ne; apply/esym; apply: (cls y1 y2 (v - y1)) => //; exact: vec_a.
have u3 : uniq [:: y1; y2; w].
  rewrite /= !inE negb_or ne /= andbT; apply/andP; split; apply/eqP => e.
  + by apply: (n2 y2 v) => //; apply: vec_b ew e.
  + by apply: (n2 y1 v) => //; apply: vec_b e; rewrite addrC.
have all3 : zs =i [:: y1; y2; w].
  have sub : {subset [:: y1; y2; w] <= zs} by move=> x; rewrite !inE => /or3P[]/eqP ->.
  have le3 : (size zs <= size [:: y1; y2; w])%N by rewrite s3.
  by have [_ h] := uniq_min_size u3 sub le3 => x; rewrite -h.
have e : w = y1 + y2 + (- v) *+ 2 by rewrite mulNrn ew addrK.
by exists w; split=> //; exact: (third fP szs (And3 z1 z2 zw) e all3).
Qed.

Lemma signs (y1 y2 w : 'rV[int]_2) : w \in zs -> w \in [:: y1 + y2; y1 - y2; y2 - y1; - y1 - y2] ->
  exists a b, [/\ pm_eq (L y1) a, pm_eq (L y2) b, L w = a + b & q (a + b) <= q (a - b)].
Proof.
move=> wz; have B : L (y1 - y2) = L y1 - L y2 by rewrite LD LN.
have le z c : L z = L w + L c *+ 2 -> q (L w) <= q (L z).
  move=> e; apply: (short szs (z := c)) => //; apply: (L_inj fP).
  by rewrite LD e mulr2n LD.
rewrite !inE => /or4P[]/eqP e.
- exists (L y1), (L y2); rewrite -LD -e; split=> //; try by left.
  by rewrite -B; apply: (le _ (- y2)); rewrite B e LD LN mulr2n addrA addrK.
- exists (L y1), (- L y2); rewrite -B -e opprK; split=> //; [by left | by right; rewrite opprK |].
  by rewrite -LD; apply: (le _ y2); rewrite e B LD mulr2n addrA subrK.
- exists (- L y1), (L y2); have E : - L y1 + L y2 = L w by rewrite e LD LN addrC.
  rewrite E; split=> //; [by right; rewrite opprK | by left |].
  have -> : - L y1 - L y2 = L (- y1 - y2) by rewrite LD !LN.
  by apply: (le _ (- y2)); rewrite -E LD !LN mulr2n addrA addrK.
exists (- L y1), (- L y2); have E : - L y1 - L y2 = L w by rewrite e LD !LN.
rewrite E opprK; split=> //; [by right; rewrite opprK | by right; rewrite opprK |].
have -> : - L y1 + L y2 = L (- y1 + y2) by rewrite LD !LN.
by apply: (le _ y2); rewrite -E LD !LN mulr2n addrA subrK.
Qed.

Lemma at_least_two : (1 < size K)%N.
Proof.
have [sub _] := discard_sub P 0 [::] zs.
have := kept_generates fP rndP szs (uniq_sub_pm (uniq_pm fP szs) sub) (reduced_reason fP szs).
rewrite ltnNge => gen; apply/negP => le1.
have [k kE] : exists k : 'rV[int]_2, forall p, exists c : int, p = c *: k.
  case: (K) gen le1 => [|k [|? ?]] //= gen _; [exists 0|exists k] => p; have [f ->] := gen p.
    by exists 0; rewrite big_nil scaler0.
  exists (f k - f (- k)); by rewrite big_cons big_seq1 mulNrz -mulrzBr -scaler_int intz.
have [c e] := kE (delta_mx 0 0); have [c' e'] := kE (delta_mx 0 1).
move: (entry e 0) (entry e 1) (entry e' 0) (entry e' 1); rewrite !mxE /= !mulr1n !mulr0n.
move: (k 0 0) (k 0 1) => x y; nia.
Qed.

Lemma kept_cases :
  (exists a b, [/\ neighbors P zs = [:: a; b], a != 0, b != 0 & dot a b = 0]) \/
  (exists x y z u v w, [/\ neighbors P zs = [:: x; y; z], superbase u v w, pm_eq x u, pm_eq y v & pm_eq z w]).
Proof.
have [sub _] := discard_sub P 0 [::] zs; have uz : uniq zs by case: szs.
have uK := subseq_uniq sub uz; have ks := mem_subseq sub.
have pr x y : x \in K -> y \in K -> y != x -> `|dot (L x) (L y)| < q (L y) by exact: kept_pairs.
have n0 y : y \in K -> L y != 0.
  by move=> yK; rewrite -dot_eq0 gt_eqF // (q_gt0 fP) (shortest_neq0 szs) // ks.
have := size_subseq sub; rewrite /= s3; have := at_least_two; rewrite /neighbors.
have rr := reduced_reason fP szs.
case E: (K) uK ks pr n0 rr => [|y1 [|y2 T]] // uK ks pr n0 rr _ _.
have [k1 k2] : y1 \in zs /\ y2 \in zs by split; apply: ks; rewrite !inE eqxx ?orbT.
have ne : y1 != y2 by move: uK; rewrite /= inE negb_or => /andP[/andP[]].
have [w [wz u3 all3 w4]] := three k1 k2 ne.
have [a [b [ha hb ew le]]] := signs wz w4.
have ab1 : `|dot a b| < q a.
  have := pr y2 y1; rewrite !inE !eqxx orbT => /(_ isT isT ne).
  by case: ha hb => -> [] ->; rewrite ?(dotNl, dotNr) ?opprK ?normrN dotC.
have ab2 : `|dot a b| < q b.
  have ne' : y2 != y1 by rewrite eq_sym.
  have := pr y1 y2; rewrite !inE !eqxx orbT => /(_ isT isT ne').
  by case: ha hb => -> [] ->; rewrite ?(dotNl, dotNr) ?opprK ?normrN.
have [q1 q2] : q (L y1) = q a /\ q (L y2) = q b by split; exact: pm_q.
case: T E uK ks pr n0 rr => [|y3 T] E uK ks pr n0 rr.
  left; exists (L y1), (L y2); split=> //; rewrite ?n0 ?inE ?eqxx ?orbT //.
  have ab0 : dot a b <= 0.
    move: le; rewrite !(dotDl, dotDr, dotNl, dotNr) (dotC b a) opprK => le.
    have {}le : dot a b *+ 4 <= 0.
      rewrite -subr_ge0 in le; rewrite -oppr_ge0; apply: le_trans le _; rewrite le_eqVlt; apply/orP; left; apply/eqP.
      by move: (q a) (q b) (dot a b) => ? ? ?; ringm Rg.
    by rewrite pmulrn_lle0 in le.
  have : dot a b = 0.
    apply/eqP; rewrite eq_le ab0 /=.
    have wK : w \notin [:: y1; y2] by move: u3; rewrite /= !inE => /and3P[/norP[_ h1] h2 _]; rewrite !(eq_sym w) (negPf h1).
    have [|[y [yz yw ge]]] := rr w wz; first by rewrite (negPf wK).
    have : y \in [:: y1; y2] by move: yz; rewrite all3 !inE (negPf yw) orbF.
    have p1 : 0 <= q a + dot a b by rewrite -ler_subl_addr sub0r; apply: le_trans (ltW ab1); rewrite -normrN ler_norm.
    have p2 : 0 <= q b + dot a b by rewrite -ler_subl_addr sub0r; apply: le_trans (ltW ab2); rewrite -normrN ler_norm.
    rewrite !inE => /orP[]/eqP ey; move: ge; rewrite ey ew.
      rewrite q1 (_ : `|dot (a + b) (L y1)| = `|q a + dot a b|).
        by rewrite (ger0_norm p1) ler_addl.
      by case: ha => ->; rewrite ?dotNr ?normrN dotDl (dotC b).
    rewrite q2 (_ : `|dot (a + b) (L y2)| = `|q b + dot a b|).
      by rewrite (ger0_norm p2) ler_addl.
    by case: hb => ->; rewrite ?dotNr ?normrN dotDl addrC.
  by case: ha hb => -> [] ->; rewrite ?(dotNl, dotNr) ?opprK => ->; rewrite ?oppr0.
have lsz : (size T <= 0)%N.
  have := uniq_leq_size uK ks; by rewrite s3 /= !ltnS.
have {lsz} T0 : T = [::] by case: (T) lsz.
rewrite {}T0 in E uK ks pr n0 rr *.
have w3 : w = y3.
  have : y3 \in zs by apply: ks; rewrite !inE eqxx !orbT.
  rewrite all3 !inE => /or3P[]/eqP // e3; move: uK; rewrite /= !inE e3 eqxx ?orbT //= andbF //.
right; exists (L y1), (L y2), (L y3), a, b, (- (a + b)); rewrite -w3 /= ew; split=> //; last by right; rewrite opprK.
have y3n : y3 != y1 /\ y3 != y2.
  by move: uK; rewrite /= !inE !(eq_sym y3) => /and3P[/norP[_ ->] -> _].
have h1 : `|dot (a + b) a| < q a.
  have ne' : y1 != y3 by rewrite eq_sym y3n.1.
  have := pr y3 y1; rewrite !inE !eqxx !orbT => /(_ isT isT ne'); rewrite -w3 ew q1.
  by case: ha => ->; rewrite ?dotNr ?normrN.
have lt0 : dot a b < 0.
  have := le_lt_trans (ler_norm _) h1; by rewrite dotDl gtr_addl dotC.
have m1 : - dot a b < q a by apply: le_lt_trans ab1; rewrite -normrN ler_norm.
have m2 : - dot a b < q b by apply: le_lt_trans ab2; rewrite -normrN ler_norm.
split=> //; first exact: subrr.
- by rewrite dotNr dotDr oppr_lt0 -ltr_subl_addr sub0r.
- by rewrite dotNr dotDr oppr_lt0 (dotC b a) -ltr_subl_addl sub0r.
Qed.
End Neighbors2.

(* ---- equals, and the generators that bravais_group_2d chooses ---- *)
Section Choice.
Variables (F : rcfType) (n : nat).
Let Rg := [comRingType of F].
Add Ring RrC : (R_ring Rg).
Local Notation q v := (dot v v).
Implicit Types (a b u v w x y z : 'rV[F]_2) (nb : seq 'rV[F]_2) (Rs : seq 'M[F]_2).

Lemma overlap_q d (v : 'rV[F]_d) : overlap v v = q v. Proof. by rewrite /overlap ger0_norm // dot_ge0. Qed.
Lemma signature_perm d (vs : seq 'rV[F]_d) (v w : 'rV[F]_d) : q v = q w ->
  perm_eq [seq (q t, overlap v t) | t <- vs] [seq (q t, overlap w t) | t <- vs] -> signature vs v = signature vs w.
Proof.
move=> e p; rewrite /signature !overlap_q e.
have so := @perm_sortP F <=%R (@le_total _ _) (@le_trans _ _) (@le_anti _ _).
congr (_, (_, _)); apply/so.
  by have := perm_map (fun t : F * F => t.2) p; rewrite -!map_comp.
have := perm_map (fun t : F * F => (Num.sqrt (q w * t.1))^-1 * t.2) p; rewrite -!map_comp.
have E (v' : 'rV[F]_d) : q v' = q w -> [seq ((fun t : F * F => (Num.sqrt (q w * t.1))^-1 * t.2) \o (fun t => (q t, overlap v' t))) t | t <- vs] = [seq angle v' t | t <- vs].
  by move=> e'; apply: eq_map => t; rewrite /= /angle !overlap_q e'.
by rewrite !E.
Qed.
Lemma signature_q d (vs : seq 'rV[F]_d) (v w : 'rV[F]_d) : signature vs v = signature vs w -> q v = q w.
Proof. by move=> [e _ _]; rewrite -!overlap_q. Qed.

Lemma overlapC x y : overlap x y = overlap y x. Proof. by rewrite /overlap dotC. Qed.
Lemma equals2 a b : dot a b = 0 -> equals [:: a; b] = if q b == q a then [:: [:: a; b]] else [:: [:: a]; [:: b]].
Proof.
move=> ab; rewrite /equals /=.
have -> : (signature [:: a; b] b == signature [:: a; b] a) = (q b == q a); last by case: ifP.
apply/eqP/eqP => [|e]; first exact: signature_q.
apply: signature_perm => //=; rewrite !overlap_q (overlapC b a) e.
by apply/permP => P /=; do 2!case: (P _).
Qed.

Section Super.
Variables u v w x y z : 'rV[F]_2.
Hypotheses (sb : superbase u v w) (ux : pm_eq x u) (vy : pm_eq y v) (wz : pm_eq z w).
Local Notation sg := (signature [:: x; y; z]).
Lemma super_overlaps : [/\ q x = overlap x y + overlap x z, q y = overlap x y + overlap y z & q z = overlap x z + overlap y z].
Proof.
have [_ h1 h2 h3] := sb; have [q1 q2 q3] := super_q sb.
have ov (s t s' t' : 'rV[F]_2) : pm_eq s s' -> pm_eq t t' -> dot s' t' < 0 -> overlap s t = - dot s' t'.
  by rewrite /overlap; case=> -> [] -> lt; rewrite ?(dotNl, dotNr) ?opprK ?normrN ltr0_norm.
by rewrite (pm_q ux) (pm_q vy) (pm_q wz) (ov _ _ _ _ ux vy h1) (ov _ _ _ _ ux wz h2) (ov _ _ _ _ vy wz h3).
Qed.
Lemma super_signature : [/\ (sg y == sg x) = (q y == q x), (sg z == sg x) = (q z == q x) & (sg z == sg y) = (q z == q y)].
Proof.
have [e1 e2 e3] := super_overlaps.
split; apply/eqP/eqP => [|e]; try exact: signature_q.
all: apply: signature_perm => //=; rewrite !overlap_q ?(overlapC y x) ?(overlapC z x) ?(overlapC z y) ?e.
- have -> : overlap y z = overlap x z by apply: (addrI (overlap x y)); rewrite -e1 -e2.
  by apply/permP => P /=; do 3!case: (P _).
- have -> : overlap y z = overlap x y by apply: (addrI (overlap x z)); rewrite -e3 e e1 addrC.
  by apply/permP => P /=; do 3!case: (P _).
- have -> : overlap x z = overlap x y by apply: (addIr (overlap y z)); rewrite -e3 e e2.
  by apply/permP => P /=; do 3!case: (P _).
Qed.
Lemma equals3 : equals [:: x; y; z] =
  if q y == q x then if q z == q x then [:: [:: x; y; z]] else [:: [:: z]; [:: x; y]]
  else if q z == q x then [:: [:: y]; [:: x; z]] else if q z == q y then [:: [:: x]; [:: y; z]] else [:: [:: x]; [:: y]; [:: z]].
Proof.
have [h1 h2 h3] := super_signature.
rewrite /equals /= h1; case: ifP => _ /=; rewrite h2; first by case: ifP.
by case: ifP => _ //=; rewrite h3; case: ifP.
Qed.
End Super.

(* the matrices map the vectors to the vectors or their opposites, and generate with the inversion all orthogonal ones that do *)
Definition permutes nb (R : 'M[F]_2) := forall v, v \in nb -> act R v \in pms nb.
Definition complete nb Rs := (forall R, R \in Rs -> orthogonal R /\ permutes nb R) /\
  forall Pr : 'M[F]_2 -> Prop, (forall A A', Pr A -> Pr A' -> Pr (A *m A')) -> Pr (- 1%:M) -> (forall R, R \in Rs -> Pr R) ->
    forall R, orthogonal R -> permutes nb R -> Pr R.
Lemma complete_ext nb nb' Rs : nb =i nb' -> complete nb Rs -> complete nb' Rs.
Proof.
move=> e [h h']; have p R : permutes nb R <-> permutes nb' R.
  by split=> hR v; [rewrite -e|rewrite e] => /hR; rewrite !mem_pms !e.
split=> [R RR|Pr PrM PrN all R o /p]; last exact: h'.
by have [o /p] := h R RR.
Qed.
Lemma in2 (A B : 'M[F]_2) (Pr : 'M[F]_2 -> Prop) : Pr A -> Pr B -> forall R, R \in [:: A; B] -> Pr R.
Proof. by move=> a b R; rewrite !inE => /orP[]/eqP ->. Qed.
Lemma in3 (A B C : 'M[F]_2) (Pr : 'M[F]_2 -> Prop) : Pr A -> Pr B -> Pr C -> forall R, R \in [:: A; B; C] -> Pr R.
Proof. by move=> a b c R; rewrite !inE => /or3P[]/eqP ->. Qed.
Lemma hd2 (A B : 'M[F]_2) : A \in [:: A; B] /\ B \in [:: A; B]. Proof. by rewrite !inE !eqxx orbT. Qed.
Lemma hd3 (A B C : 'M[F]_2) : [/\ A \in [:: A; B; C], B \in [:: A; B; C] & C \in [:: A; B; C]].
Proof. by rewrite !inE !eqxx !orbT. Qed.

Lemma complete_rect a b : a != 0 -> b != 0 -> dot a b = 0 -> q a != q b -> complete [:: a; b] [:: refl a; refl b].
Proof.
move=> a0 b0 ab ne; split.
  by apply: in2; (split; first exact: refl_orth) => v /(rect_refl a0 b0 ab) [].
move=> Pr PrM PrN all R o h; have [hA hB] := hd2 (refl a) (refl b).
exact: (rectangle PrM PrN a0 b0 ab o ne h (all _ hA) (all _ hB)).
Qed.
Lemma complete_square a b s : a != 0 -> b != 0 -> dot a b = 0 -> q a = q b -> s ^+ 2 = 1 ->
  complete [:: a; b] [:: refl a; refl b; rotation2 0 s].
Proof.
move=> a0 b0 ab e es; split.
  apply: in3; split; try exact: refl_orth; try by move=> v /(rect_refl a0 b0 ab) [].
    by apply: rotation2_orth; rewrite es expr0n add0r.
  by move=> v; apply: square_rot.
move=> Pr PrM PrN all R o h; have [hA hB hC] := hd3 (refl a) (refl b) (rotation2 0 s).
exact: (square_complete PrM PrN a0 b0 ab es e o h (all _ hA) (all _ hB) (all _ hC)).
Qed.
Lemma complete_pair u v w x y z : superbase u v w -> pm_eq x u -> pm_eq y v -> pm_eq z w -> q x = q y -> q z != q x ->
  complete [:: x; y; z] [:: refl (x + y); refl (x - y)].
Proof.
move=> sb ux vy wz; rewrite (pm_q ux) (pm_q vy) (pm_q wz) => e ne; have [p0 m0 _ _] := axes sb ux vy wz e.
split; first by apply: in2; (split; first exact: refl_orth) => t /(hex_refl sb ux vy wz e) [].
move=> Pr PrM PrN all R o h; have [hA hB] := hd2 (refl (x + y)) (refl (x - y)).
exact: (hex_pair PrM PrN sb ux vy wz e o ne h (all _ hA) (all _ hB)).
Qed.
Lemma complete_hex u v w x y z s : superbase u v w -> pm_eq x u -> pm_eq y v -> pm_eq z w -> q x = q y -> q x = q z ->
  s ^+ 2 = 3%:R / 4%:R -> complete [:: x; y; z] [:: refl (x + y); refl (x - y); rotation2 2^-1 s].
Proof.
move=> sb ux vy wz; rewrite (pm_q ux) (pm_q vy) (pm_q wz) => e e' es; have [p0 m0 _ _] := axes sb ux vy wz e.
split.
  apply: in3; split; try exact: refl_orth; try by move=> t /(hex_refl sb ux vy wz e) [].
    exact: six_orth.
  by move=> t; apply: (hex_rot sb).
move=> Pr PrM PrN all R o h; have [hA hB hC] := hd3 (refl (x + y)) (refl (x - y)) (rotation2 2^-1 s).
exact: (hex_complete PrM PrN sb ux vy wz e es e' o h (all _ hA) (all _ hB) (all _ hC)).
Qed.
Lemma complete_oblique u v w x y z : superbase u v w -> pm_eq x u -> pm_eq y v -> pm_eq z w ->
  q x != q y -> q x != q z -> q y != q z -> complete [:: x; y; z] [::].
Proof.
move=> sb ux vy wz; rewrite (pm_q ux) (pm_q vy) (pm_q wz) => e1 e2 e3; split=> // Pr PrM PrN _ R o h.
exact: (oblique PrM PrN sb ux vy wz e1 e2 e3 o h).
Qed.

Variables (cs sn : F -> F).
Hypothesis trig : PropPointGroups.trig_table cs sn.
Definition bare (R : 'M[F]_2) : pge F 2 n := Pge R false false None false.
Lemma sn4 : sn 4%:R^-1 ^+ 2 = 1. Proof. by case: trig => [[_ ->]] _ _ _; rewrite expr1n. Qed.
Lemma sn6 : sn 6%:R^-1 ^+ 2 = 3%:R / 4%:R.
Proof. by case: trig => _ _ _ [_ ->]; rewrite expr_div_n expr2 PropPointGroups.s3_sq -natrX. Qed.

Lemma generators2 a b : a != 0 -> b != 0 -> dot a b = 0 ->
  exists2 Rs, bravais_group_2d n cs sn [:: a; b] = Ok [seq bare R | R <- Rs] & complete [:: a; b] Rs.
Proof.
move=> a0 b0 ab; rewrite /bravais_group_2d equals2 //; case: (eqVneq (q b) (q a)) => [e|ne] /=.
  exists [:: refl a; refl b; rotation2 (cs 4%:R^-1) (sn 4%:R^-1)] => //.
  by case: trig => [[-> _]] _ _ _; apply: complete_square => //; exact: sn4.
by exists [:: refl a; refl b] => //; apply: complete_rect => //; rewrite eq_sym.
Qed.
Lemma generators3 u v w x y z : superbase u v w -> pm_eq x u -> pm_eq y v -> pm_eq z w ->
  exists2 Rs, bravais_group_2d n cs sn [:: x; y; z] = Ok [seq bare R | R <- Rs] & complete [:: x; y; z] Rs.
Proof.
move=> sb ux vy wz; rewrite /bravais_group_2d (equals3 sb ux vy wz).
case: (eqVneq (q y) (q x)) => [e1|n1]; case: (eqVneq (q z) (q x)) => [e2|n2] /=.
- exists [:: refl (x + y); refl (x - y); rotation2 (cs 6%:R^-1) (sn 6%:R^-1)] => //.
  by case: trig => _ _ _ [-> _]; apply: (complete_hex sb) => //; exact: sn6.
- by exists [:: refl (x + y); refl (x - y)] => //; apply: (complete_pair sb).
- exists [:: refl (x + z); refl (x - z)] => //.
  have E : [:: x; z; y] =i [:: x; y; z] by move=> t; rewrite !inE; congr (_ || _); rewrite orbC.
  by apply: complete_ext E _; apply: (complete_pair (superbaseR (superbaseC sb))).
case: (eqVneq (q z) (q y)) => [e3|n3] /=.
  exists [:: refl (y + z); refl (y - z)] => //.
  have E : [:: y; z; x] =i [:: x; y; z] by move=> t; rewrite !inE; case: (t == x) (t == y) (t == z) => [] [] [].
  by apply: complete_ext E _; apply: (complete_pair (superbaseR sb)) => //; rewrite eq_sym.
by exists [::] => //; apply: (complete_oblique sb) => //; rewrite eq_sym.
Qed.
End Choice.

(* ---- more fuel does not change a result ---- *)
Section Mono.
Variables (F : rcfType) (rnd : F -> int).
Hypothesis rndP : forall x, `|x - (rnd x)%:~R| <= 2^-1.
Variable argsort : forall N, ('rV[int]_N -> F) -> seq 'rV[int]_N -> seq 'rV[int]_N.
Hypothesis argsort_perm : forall N key (s : seq 'rV[int]_N), perm_eq (argsort key s) s.
Hypothesis argsort_sorted : forall N key (s : seq 'rV[int]_N), sorted (fun z w => key z <= key w) (argsort key s).

Lemma voronoi_mono m d (P : 'M[F]_(m.+1, d)) fuel fuel' reduced rtol r : (fuel <= fuel')%N ->
  voronoi rnd (@argsort _) fuel P reduced rtol = Some r -> voronoi rnd (@argsort _) fuel' P reduced rtol = Some r.
Proof.
move=> le; have V e x : vertex rnd (@argsort _) fuel P e = Some x -> vertex rnd (@argsort _) fuel' P e = Some x.
  rewrite /vertex /cvp; case: ifP => // _; case h: (cvp_loop _ _ _ _ _ _ _ _ fuel _) => [y|] //.
  by rewrite (loop_mono le h).
have W es x : vertices rnd (@argsort _) fuel P es = Some x -> vertices rnd (@argsort _) fuel' P es = Some x.
  elim: es x => //= e es IH x; case E: (vertex _ _ fuel _ _) => [y|] //; rewrite (V _ _ E); case: y {E} => // y.
  by case E: (vertices _ _ fuel _ _) => [z|] //; rewrite (IH _ E).
by rewrite /voronoi; case E: (vertices _ _ fuel _ _) => [y|] //; rewrite (W _ _ E).
Qed.
Lemma voronoi_ok m d (P : 'M[F]_(m.+1, d)) fuel reduced rtol r : row_free P ->
  voronoi rnd (@argsort _) fuel P reduced rtol = Some r -> exists V, r = Ok V.
Proof.
move=> fP h; have [fuel' [V h']] := C58_terminates fP rndP (@argsort_perm _) (@argsort_sorted _) reduced rtol.
exists V; have := voronoi_mono (leq_maxl fuel fuel') h; have := voronoi_mono (leq_maxr fuel fuel') h'.
by move=> -> [].
Qed.
Lemma lll_mono m d gsc near (B : 'M[F]_(m.+1, d)) fuel fuel' c r : (fuel <= fuel')%N ->
  lll rnd gsc near fuel B c = Some r -> lll rnd gsc near fuel' B c = Some r.
Proof.
move=> le; rewrite /lll; case: ifP => // _; case E: (lll_loop _ _ fuel _ _ _) => [s|] //.
suff -> : lll_loop rnd gsc fuel' c 0 (lll_init rnd gsc B) = Some s by [].
move: E; move: {B} 0%N (lll_init _ _ _) => i t; elim: fuel fuel' le i t => [|fuel IH] [|fuel'] //= le i t.
  by case: ifP => // _; case: ifP.
by case: ifP => // _; case: ifP => _; apply: IH.
Qed.
End Mono.

(* ---- bravais_point_group in two dimensions ---- *)
Section Exact.
Variables (F : rcfType) (n : nat).
Variables (cs sn : F -> F) (rnd : F -> int).
Variable near : F -> F -> bool.
Variable argsort : forall N, ('rV[int]_N -> F) -> seq 'rV[int]_N -> seq 'rV[int]_N.
Variable group_3d : seq 'rV[F]_3 -> res (seq (pge F 3 n)).
Variable ord : forall d, seq (pge F d n) -> seq (pge F d n).
Hypothesis ordP : forall d, enumeration (@ord d).
Hypothesis rndP : forall x, `|x - (rnd x)%:~R| <= 2^-1.
Hypothesis near_refl : forall x, near x x.
Hypothesis argsort_perm : forall N key (s : seq 'rV[int]_N), perm_eq (argsort key s) s.
Hypothesis argsort_sorted : forall N key (s : seq 'rV[int]_N), sorted (fun z w => key z <= key w) (argsort key s).
Hypothesis trig : PropPointGroups.trig_table cs sn.
Local Notation gsc := (fun N => @gs_coefficient F N).
Local Notation bravais := (bravais_square cs sn rnd gsc near argsort group_3d ord).
Implicit Types (B P : 'M[F]_2).

(* the generators that are found, for a reduced basis *)
Lemma plane_generators fuel P V : row_free P -> voronoi rnd (@argsort _) fuel P true 0 = Some (Ok V) ->
  let nb := take (size V)./2 [seq lattice_point P z | z <- V] in
  exists Rs, [/\ group_nd cs sn group_3d nb = Ok [seq bare n R | R <- Rs],
    forall R, R \in Rs -> orthogonal R /\ preserves P R,
    forall tr ph, exists2 gens, add_tr_ph tr ph None (inversion 2 None :: [seq bare n R | R <- Rs]) = Ok gens &
      [/\ check_bravais_symmetry nb gens, map (@PointGroups.pkey F 2 n) gens = PointGroups.flag_keys tr ph (- 1%:M :: Rs) &
          forall g, List.In g gens -> pstrict g = false /\ pU g = None] &
    forall R, orthogonal R -> preserves P R -> gen_by (@mulmx F 2 2 2) (fun A => A \in - 1%:M :: Rs) R].
Proof.
move=> fP ev /=.
have [zs [szs s3 eV]] : exists zs, [/\ shortest_set P zs, size zs = 3%N & V = discard P 0 [::] zs ++ [seq - y | y <- discard P 0 [::] zs]].
  move: ev; rewrite /voronoi; case h': (vertices _ _ _) => [[zs|]|] // [<-]; exists zs; split=> //.
    exact: vertices_shortest h'.
  by rewrite (vertices_size h') size_displacements.
rewrite eV half_pm -/(neighbors P zs).
have [Rs eg [ok compl]] : exists2 Rs, bravais_group_2d n cs sn (neighbors P zs) = Ok [seq bare n R | R <- Rs] & complete (neighbors P zs) Rs.
  have [[a [b [-> a0 b0 ab]]]|[x [y [z [u [v [w [-> sb ux vy wz]]]]]]]] := kept_cases rndP fP szs s3.
    exact: generators2.
  exact: (generators3 n trig sb).
exists Rs; split=> //.
- by move=> R /ok [o h]; split=> //; exact: permutes_preserves h.
- move=> tr ph; have [T [-> kT sT UT]] := PropPointGroups.add_tr_phP tr ph None (inversion 2 None :: [seq bare n R | R <- Rs]).
  eexists; first exact: erefl.
  have ik : map (@PointGroups.pkey F 2 n) (inversion 2 None :: [seq bare n R | R <- Rs]) = [seq (R, false, false) | R <- - 1%:M :: Rs].
    by rewrite /= -map_comp.
  split; last first.
  + apply: (PropPointGroups.In_flags (P := fun g => pstrict g = false /\ pU g = None)) => //; last by split=> //; exact: UT.
    move=> g [<-|] //; elim: (Rs) => //= R s IH [<-|] //.
  + exact: PropPointGroups.flag_keysE.
  have each : forall g, List.In g ((inversion 2 None :: [seq bare n R | R <- Rs]) ++ (if tr then [:: T] else [::]) ++ (if ph then [:: particle_hole 2 None] else [::])) ->
      orthogonal (pR g) /\ permutes (neighbors P zs) (pR g).
    have one : orthogonal (1%:M : 'M[F]_2) /\ permutes (neighbors P zs) 1%:M.
      by split=> [|v vn]; [rewrite /orthogonal trmx1 mulmx1 | rewrite /act trmx1 mulmx1 mem_pms vn].
    apply: (PropPointGroups.In_flags (P := fun g => orthogonal (pR g) /\ permutes (neighbors P zs) (pR g))) => //; last first.
      by case: (T) kT => ? ? ? ? ? [/= -> _ _].
    move=> g [<-|] /=.
      by split=> [|v vn]; [exact: orthogonalN1 | rewrite act_opp mem_pms opprK vn orbT].
    have: forall R, R \in Rs -> orthogonal R /\ permutes (neighbors P zs) R by [].
    elim: (Rs) => //= R s IH h [<-|]; first by apply: h; rewrite mem_head.
    by apply: IH => R' R's; apply: h; rewrite inE R's orbT.
  apply/(check_bravaisP (uniq_neighbors fP szs)) => g /each [] //.
- move=> R o pr; apply: (compl (gen_by (@mulmx F 2 2 2) (fun A => A \in - 1%:M :: Rs))) => //.
  + by move=> A A'; exact: gen_mul.
  + by apply: gen_base; rewrite mem_head.
  + by move=> A AR; apply: gen_base; rewrite inE AR orbT.
  + by move=> v vn; apply: (symmetry_permutes rndP fP szs o pr); rewrite mem_pms vn.
Qed.

Lemma lattice_sym B P R : same_lattice B P -> preserves B R <-> preserves P R.
Proof. by move=> s; split; [exact: same_preserves (same_sym s) | exact: same_preserves s]. Qed.

(* the whole group *)
Lemma group_of fuel P (V : seq 'rV[int]_2) Rs tr ph gens : row_free P -> 
  voronoi rnd (@argsort _) fuel P true 0 = Some (Ok V) ->
  (forall R, R \in Rs -> orthogonal R /\ preserves P R) ->
  map (@PointGroups.pkey F 2 n) gens = PointGroups.flag_keys tr ph (- 1%:M :: Rs) ->
  (forall g, List.In g gens -> pstrict g = false /\ pU g = None) ->
  (forall R, orthogonal R -> preserves P R -> gen_by (@mulmx F 2 2 2) (fun A => A \in - 1%:M :: Rs) R) ->
  exists order f0 G, forall fuel', (f0 <= fuel')%N ->
   [/\ generate_group (@pge_eq F 2 n) (@pge_mul F 2 n) (@ord _) fuel' (set_of (@pge_eq F 2 n) gens) = Some G,
      PropPointGroups.point_group tr ph (fun R => orthogonal R /\ preserves P R) order G & forall g, List.In g G -> pU g = None].
Proof.
move=> fP ev ok keys ns compl; have [zs szs _] := voronoiP fP rndP (@argsort_perm _) (@argsort_sorted _) ev.
have [S uS SP] := finite_symmetries rndP fP szs.
have H : [/\ uniq S, 1%:M \in S, {subset - 1%:M :: Rs <= S}, forall A A', A \in S -> A' \in S -> A *m A' \in S &
     (forall A, A \in S -> gen_by (@mulmx F 2 2 2) (fun A' => A' \in - 1%:M :: Rs) A) /\ forall A, A \in S -> A \in unitmx].
  split=> //.
  - by apply/SP; split; [rewrite /orthogonal trmx1 mulmx1 | exact: preserves1].
  - move=> A; rewrite inE => /orP[/eqP ->|/ok hA]; apply/SP => //.
    by split; [exact: orthogonalN1 | exact: preservesN1].
  - by move=> A A' /SP [o p] /SP [o' p']; apply/SP; split; [exact: orthogonal_mul | exact: preserves_mul].
  split=> A /SP [o p]; first exact: compl.
  by case: (mulmx1_unit o).
exists (size S), (size S * 4).+1%N.
have [|G EG [PG UG]] := PropPointGroups.finish_groupP ordP H keys _ (leqnn _).
- by move=> g /ns[].
have PG' := PropPointGroups.group_ext SP PG.
have {}EG : generate_group (@pge_eq F 2 n) (@pge_mul F 2 n) (@ord _) (size S * 4).+1 (set_of (@pge_eq F 2 n) gens) = Some G.
  by move: EG; rewrite /finish_group; case: generate_group => //= G' [->].
exists G => fuel' le; split=> //; last by apply: UG => g /ns[].
exact: generate_group_fuel_mono le EG.
Qed.

Theorem C103_group fuel B c tr ph r : row_free B -> bravais fuel B c 0 tr ph false = Some r ->
  exists G order, [/\ r = Ok G, PropPointGroups.point_group tr ph (fun R => orthogonal R /\ preserves B R) order G &
    forall g, List.In g G -> pU g = None].
Proof.
move=> fB; rewrite /bravais_square; case el: lll => [[[P T]|e]|] //; last first.
  by have [? [? [? _]]] := C56_lll rndP near_refl fB el.
have sl := lll_same el; have fP := same_free sl fB.
case ev: voronoi => [[V|e]|] //; last first.
  by have [] := voronoi_ok rndP argsort_perm argsort_sorted fP ev.
have [Rs [-> ok gn compl]] := plane_generators fP ev; have [gens -> [-> keys ns]] := gn tr ph => /=.
have [order [f0 [G GP]]] := group_of fP ev ok keys ns compl.
case E: generate_group => [G'|] //= [<-].
have [E' PG UG] := GP _ (leq_maxr fuel f0).
have := generate_group_fuel_mono (leq_maxl fuel f0) E; rewrite E' => -[<-].
exists G, order; split=> //; apply: PropPointGroups.group_ext PG => R.
by rewrite (lattice_sym _ sl).
Qed.

(* the generators *)
Theorem C103_generators fuel B c tr ph r : row_free B -> bravais fuel B c 0 tr ph true = Some r ->
  exists2 G, r = Ok G & (forall g, List.In g G -> orthogonal (pR g) /\ preserves B (pR g)) /\
    forall R cc a, orthogonal R -> preserves B R -> (~~ tr -> cc = a) -> (~~ ph -> a = false) ->
      gen_by (@PointGroups.kmul F 2) (fun k => k \in map (@PointGroups.pkey F 2 n) G) (R, cc, a).
Proof.
move=> fB; rewrite /bravais_square; case el: lll => [[[P T]|e]|] //; last first.
  by have [? [? [? _]]] := C56_lll rndP near_refl fB el.
have sl := lll_same el; have fP := same_free sl fB.
case ev: voronoi => [[V|e]|] //; last first.
  by have [] := voronoi_ok rndP argsort_perm argsort_sorted fP ev.
have [Rs [-> ok gn compl]] := plane_generators fP ev; have [gens -> [-> keys ns]] := gn tr ph => /= -[<-].
have [order [f0 [G GP]]] := group_of fP ev ok keys ns compl.
have [E PG UG] := GP _ (leqnn _).
have [_ _ mG _] := PG.
exists (set_of (@pge_eq F 2 n) gens) => //.
have mem g : List.In g (set_of (@pge_eq F 2 n) gens) -> orthogonal (pR g) /\ preserves P (pR g).
  move=> gs; have gg := In_set_of gs.
  have : PointGroups.pkey g \in PointGroups.flag_keys tr ph (- 1%:M :: Rs) by rewrite -keys; apply/PointGroups.In_keys; exists g.
  have one : orthogonal (1%:M : 'M[F]_2) /\ preserves P 1%:M by split; [rewrite /orthogonal trmx1 mulmx1 | exact: preserves1].
  rewrite /PointGroups.flag_keys !mem_cat => /or3P[/mapP[R + [-> _ _]]| |].
  - by rewrite inE => /orP[/eqP ->|/ok //]; split; [exact: orthogonalN1 | exact: preservesN1].
  - by case: (tr) => //; rewrite inE => /eqP [-> _ _].
  - by case: (ph) => //; rewrite inE => /eqP [-> _ _].
split=> [g /mem[o p]|R cc a o p t1 t2]; first by split=> //; exact/(lattice_sym _ sl).
have pl g : List.In g (set_of (@pge_eq F 2 n) gens) -> PointGroups.plain g.
  move=> gs; have [og _] := mem g gs; have [s _] := ns g (In_set_of gs).
  by rewrite /PointGroups.plain s andbT; case: (mulmx1_unit og).
have [_ _ mk] := PointGroups.plain_group (@ordP 2) pl E; apply/mk/mG; split=> //.
by split=> //; exact/(lattice_sym _ sl).
Qed.

(* it returns if lll does *)
Theorem C103_returns fuel B c x : row_free B -> lll rnd (@gs_coefficient F 2) near fuel B c = Some x ->
  exists f0, forall fuel' tr ph generators, (f0 <= fuel')%N -> exists G, bravais fuel' B c 0 tr ph generators = Some (Ok G).
Proof.
move=> fB el; have [P [T [ex _ _ sl _]]] := C56_lll rndP near_refl fB el; rewrite {}ex in el.
have fP := same_free sl fB.
have [f1 [V ev]] := C58_terminates fP rndP (@argsort_perm _) (@argsort_sorted _) true 0.
have [Rs [eg ok gn compl]] := plane_generators fP ev.
have H tr ph : exists f0, forall fuel', (f0 <= fuel')%N -> exists G, forall gens,
   add_tr_ph tr ph None (inversion 2 None :: [seq bare n R | R <- Rs]) = Ok gens ->
   generate_group (@pge_eq F 2 n) (@pge_mul F 2 n) (@ord _) fuel' (set_of (@pge_eq F 2 n) gens) = Some G.
  have [gens eg' [_ keys ns]] := gn tr ph; have [order [f0 [G GP]]] := group_of fP ev ok keys ns compl.
  by exists f0 => fuel' /GP [E _ _]; exists G => gens'; rewrite eg' => -[<-].
have [g1 h1] := H true true; have [g2 h2] := H true false; have [g3 h3] := H false true; have [g4 h4] := H false false.
exists (maxn (maxn fuel f1) (maxn (maxn g1 g2) (maxn g3 g4))) => fuel' tr ph generators.
rewrite !geq_max => /andP[/andP[l1 l2] /andP[/andP[l3 l4] /andP[l5 l6]]].
rewrite /bravais_square (lll_mono l1 el) (voronoi_mono l2 ev) eg.
have [gens eg' [ck keys ns]] := gn tr ph; rewrite eg' ck /=.
case: generators; first by eexists.
have [G /(_ _ eg') ->] : exists G, forall gens,
   add_tr_ph tr ph None (inversion 2 None :: [seq bare n R | R <- Rs]) = Ok gens ->
   generate_group (@pge_eq F 2 n) (@pge_mul F 2 n) (@ord _) fuel' (set_of (@pge_eq F 2 n) gens) = Some G.
  by case: (tr) (ph) => [] []; [exact: h1|exact: h2|exact: h3|exact: h4].
by eexists.
Qed.

(* the long and narrow rectangle of C89: without tolerance the mirror is found *)
Example C103_thin e c : 0 < e -> e < 4%:R^-1 -> 1 < c -> exists fuel G,
  bravais fuel (thin e) c 0 false false false = Some (Ok G) /\ (mirror_y F, false, false) \in map (@PointGroups.pkey F 2 n) G.
Proof.
move=> e0 e4 c1; have ne : e != 0 by rewrite gt_eqF.
have e1 : e ^+ 2 < c.
  apply: lt_trans c1; rewrite exprn_ilt1 ?(ltW e0) //; apply: lt_trans e4 _; by rewrite invf_lt1 ?ltr0n ?ltr1n.
have fB := thin_free ne.
have [T el] := thin_lll rndP near_refl 0 ne e1; have [f0 h] := C103_returns fB el.
have [G EG] := h f0 false false false (leqnn _); exists f0, G; split=> //.
have [_ [order [[<-] [_ _ mG _] _]]] := C103_group fB EG.
have [_ [_ o p _]] := C89_complete_refuted (n := n) cs sn group_3d ordP rndP near_refl argsort_perm argsort_sorted e0 e4 c1.
by apply/mG.
Qed.
End Exact.

(* C88: the vectors kept without tolerance are those of Voronoi's theorem *)
Theorem C88_criterion (F : rcfType) m d (rnd : F -> int) argsort (B : 'M[F]_(m.+1, d)) fuel V y :
  (forall x, `|x - (rnd x)%:~R| <= 2^-1) -> (forall key s, perm_eq (argsort key s) s) ->
  (forall key s, sorted (fun z w => key z <= key w) (argsort key s)) -> row_free B ->
  voronoi rnd argsort fuel B true 0 = Some (Ok V) -> y \in V <-> only_shortest B y.
Proof.
move=> rndP ap asr fB h; have [zs szs ->] := voronoiP fB rndP ap asr h; exact: (keptP rndP fB szs).
Qed.

Print Assumptions C103_group.
Print Assumptions C103_generators.
Print Assumptions C103_returns.
Print Assumptions C88_criterion.
