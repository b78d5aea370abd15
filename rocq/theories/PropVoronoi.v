(* C58, C88: the vectors returned by voronoi *)
From mathcomp Require Import all_ssreflect all_algebra zify.
From Verif Require Import Prelude LinSpan NullSpec Complement RingTac Continuum PropContinuum LLL PropLLL CVP PropCVP.

Set Implicit Arguments.
Unset Strict Implicit.
Unset Printing Implicit Defensive.
Import Order.TTheory GRing.Theory Num.Theory.
Local Open Scope ring_scope.

(* ---- the half lattice points ---- *)
Section Displacements.
Variable m : nat.
Local Notation N := m.+1.
Local Notation point := 'rV[int]_N.
Local Notation prod k := (product (nseq k [:: 0 : int; 1])).
Lemma prod_head k : prod k = nseq k 0 :: behead (prod k).
Proof. by elim: k => //= k ->. Qed.
Lemma size_prod k : size (prod k) = (2 ^ k)%N.
Proof. by elim: k => //= k IH; rewrite !size_cat !size_map IH expnS /= addn0 mul2n addnn. Qed.
Lemma mem_prod k t : (t \in prod k) = (size t == k) && all (fun a : int => a \in [:: 0; 1]) t.
Proof.
rewrite (mem_product 0) size_nseq; case: eqP => //= st; apply/allP/allP => [h a /(nthP 0)[i]|h i].
  by rewrite st => il <-; have := h i; rewrite mem_iota add0n nth_nseq il => /(_ isT).
by rewrite mem_iota add0n nth_nseq => /andP[_ il]; rewrite il; apply: h; rewrite mem_nth // st.
Qed.
Lemma uniq_prod k : uniq (prod k).
Proof. by apply: uniq_product => l; rewrite mem_nseq => /andP[_ /eqP ->]. Qed.
Lemma mem_displacements (e : point) : (e \in displacements m) = [forall i, e 0 i \in [:: 0 : int; 1]] && (e != 0).
Proof.
have E := prod_head N; have := uniq_prod N; rewrite E cons_uniq => /andP[/negP nh _].
apply/idP/idP => [/mapP[t tb ->]|/andP[/forallP h /eqP e0]].
  have : t \in prod N by rewrite E inE tb orbT.
  rewrite mem_prod => /andP[/eqP st /allP al]; apply/andP; split.
    by apply/forallP => i; rewrite mxE al // mem_nth // st.
  apply/eqP => /rowP t0; apply: nh; suff <- : t = nseq N 0 by [].
  apply: (@eq_from_nth _ 0); rewrite ?size_nseq // st => i il; rewrite nth_nseq il.
  by have := t0 (Ordinal il); rewrite !mxE.
have eE : e = \row_i [seq e 0 i | i <- enum 'I_N]`_i.
  by apply/rowP => i; rewrite mxE (nth_map i) ?size_enum_ord // nth_ord_enum.
rewrite eE; apply: map_f.
have : [seq e 0 i | i <- enum 'I_N] \in prod N.
  by rewrite mem_prod size_map size_enum_ord eqxx /=; apply/allP => a /mapP[i _ ->].
rewrite E inE => /orP[/eqP z|//]; case: e0; rewrite eE z; apply/rowP => i; by rewrite !mxE nth_nseq ltn_ord.
Qed.
Lemma uniq_displacements : uniq (displacements m).
Proof.
rewrite map_inj_in_uniq; first by have := uniq_prod N; rewrite (prod_head N) cons_uniq => /andP[].
have sz t : t \in behead (prod N) -> size t = N.
  move=> h; have : t \in prod N by rewrite (prod_head N) inE h orbT.
  by rewrite mem_prod => /andP[/eqP].
move=> s t /sz hs /sz ht /rowP e; apply: (@eq_from_nth _ 0); rewrite hs ?ht // => i il.
by have := e (Ordinal il); rewrite !mxE.
Qed.
Lemma size_displacements : size (displacements m) = (2 ^ N).-1.
Proof. by rewrite size_map size_behead size_prod. Qed.
(* every point is twice a point or differs from a displacement by twice a point *)
Lemma parity (p : point) : (exists w, p = w *+ 2) \/ (exists e w, e \in displacements m /\ p = w *+ 2 - e).
Proof.
pose e : point := \row_i modz (p 0 i) 2; pose w : point := \row_i divz (p 0 i) 2.
have pE : p = w *+ 2 + e by apply/rowP => i; rewrite !mxE {1}(divz_eq (p 0 i) 2); lia.
case: (eqVneq e 0) => [e0|e0]; first by left; exists w; rewrite {1}pE e0 addr0.
right; exists e, (w + e); split; last by rewrite {1}pE mulrnDl (mulr2n e) addrA addrK.
rewrite mem_displacements e0 andbT; apply/forallP => i; rewrite mxE !inE; lia.
Qed.
(* a displacement is not twice a point, and different displacements are of different parity *)
Lemma parity_disp (e e' z : point) : e \in displacements m -> e' \in displacements m -> e' = e + z *+ 2 -> e' = e.
Proof.
rewrite !mem_displacements => /andP[/forallP h _] /andP[/forallP h' _] /rowP E; apply/rowP => i.
by have := h i; have := h' i; have := E i; rewrite !mxE !inE; move: (e 0 i) (e' 0 i) (z 0 i) => a b c; lia.
Qed.
Lemma parity_disp0 (e z : point) : e \in displacements m -> e <> z *+ 2.
Proof.
rewrite mem_displacements => /andP[/forallP h /eqP ne] /rowP E; apply: ne; apply/rowP => i.
by have := h i; have := E i; rewrite !mxE !inE; move: (e 0 i) (z 0 i) => a b; lia.
Qed.
End Displacements.

Section Lattice.
Variables (F : rcfType) (m d : nat).
Local Notation N := m.+1.
Local Notation point := 'rV[int]_N.
Let R := [comRingType of F].
Add Ring Rr : (R_ring R).
Implicit Types (p a b y z w : point) (u : 'rV[F]_d) (V K : seq point).

(* ---- specification ---- *)
(* the points at least as close to the origin as to the given lattice points; as to every lattice point *)
Definition cell (B : 'M[F]_(N, d)) V u := forall y, y \in V -> norm u <= norm (u - lattice_point B y).
Definition voronoi_cell (B : 'M[F]_(N, d)) u := forall y, norm u <= norm (u - lattice_point B y).
Definition generates V := forall p, exists f : point -> int, p = \sum_(y <- V) y *~ f y.

Variable B : 'M[F]_(N, d).
Hypothesis fB : row_free B.
Local Notation L := (lattice_point B).
Local Notation q p := (dot (L p) (L p)).

Lemma L0 : L 0 = 0. Proof. by rewrite /lattice_point raddf0 mul0mx. Qed.
Lemma LD p y : L (p + y) = L p + L y. Proof. by rewrite /lattice_point raddfD mulmxDl. Qed.
Lemma LN p : L (- p) = - L p. Proof. by rewrite /lattice_point raddfN mulNmx. Qed.
Lemma LB p y : L (p - y) = L p - L y. Proof. by rewrite LD LN. Qed.
Lemma L2 p : L (p *+ 2) = 2%:R *: L p. Proof. by rewrite mulr2n LD scaler_nat mulr2n. Qed.
Lemma L_eq0 p : (L p == 0) = (p == 0).
Proof.
rewrite /lattice_point mulmx_free_eq0 //; apply/eqP/eqP => [/rowP e|->]; last by rewrite raddf0.
by apply/rowP => i; have := e i; rewrite !mxE => /eqP; rewrite intr_eq0 => /eqP.
Qed.
Lemma q_gt0 p : (0 < q p) = (p != 0). Proof. by rewrite lt_def dot_ge0 andbT dot_eq0 L_eq0. Qed.
Lemma qN p : q (- p) = q p. Proof. by rewrite LN dotNl dotNr opprK. Qed.
Lemma qD p y : q (p + y) = q p + dot (L p) (L y) *+ 2 + q y.
Proof. rewrite LD dotDl !dotDr (dotC (L y)) mulr2n; move: (q p) (dot _ _) (q y) => s t r; ringm R. Qed.
Lemma qB p y : q (p - y) = q p - dot (L p) (L y) *+ 2 + q y.
Proof. by rewrite qD qN LN dotNr mulNrn. Qed.
Lemma q2 p : q (p *+ 2) = 4%:R * q p. Proof. by rewrite L2 dotZl dotZr mulrA -natrM. Qed.
Lemma closerE u y : (norm u <= norm (u - L y)) = (dot u (L y) *+ 2 <= q y).
Proof.
rewrite le_norm -(subr_ge0 (dot u u)); have -> : dot (u - L y) (u - L y) - dot u u = q y - dot u (L y) *+ 2.
  rewrite !dotBl !(dotC _ (u - _)) !dotBl (dotC (L y) u) mulr2n; move: (dot u u) (dot u (L y)) (q y) => s t r; ringm R.
by rewrite subr_ge0.
Qed.
Lemma in_cell V u : (forall y, y \in V -> - y \in V) -> cell B V u <-> forall y, y \in V -> `|dot u (L y) *+ 2| <= q y.
Proof.
move=> sym; split=> h y yV; last first.
  by rewrite closerE; apply: le_trans (ler_norm _) (h y yV).
rewrite ler_norml -closerE h // andbT ler_oppl -mulNrn -dotNr -LN -(qN y) -closerE h //; exact: sym.
Qed.

(* ---- the lattice points are well ordered by length ---- *)
Variable rnd : F -> int.
Hypothesis rndP : forall x, `|x - (rnd x)%:~R| <= 2^-1.
Lemma archi (x : F) : exists k : nat, x < k%:R.
Proof.
exists (absz (rnd x)).+1.
have h : x <= (rnd x)%:~R + 2^-1 by rewrite -ler_subl_addl; apply: le_trans (rndP x); apply: ler_norm.
apply: le_lt_trans h _; rewrite mulrSr; apply: ler_lt_add; last by rewrite invf_lt1 ?ltr0n // ltr1n.
by rewrite -[_%:R]/((absz _)%:Z%:~R) ler_int; lia.
Qed.
Lemma ball p : exists s : seq point, uniq s /\ forall a, q a <= q p -> a \in s.
Proof.
have [k kp] := archi (norm (L p) / radius B).
exists (box (map_mx rnd (coordinates B 0)) k); split; first exact: uniq_box.
move=> a ap; apply: (inside rndP fB); rewrite /coordinates !mul0mx subr0.
apply: le_lt_trans (_ : norm (L p) < _); first by rewrite le_norm.
rewrite -ltr_pdivr_mulr ?radius_gt0 //; apply: lt_le_trans kp _; rewrite ler_nat; lia.
Qed.
Lemma lattice_ind (P : point -> Prop) : (forall p, (forall a, q a < q p -> P a) -> P p) -> forall p, P p.
Proof.
move=> H p0; have [s [us hs]] := ball p0.
suff G n p : q p <= q p0 -> (count (fun a => q a < q p)%R s < n)%N -> P p by exact: (G _ p0 (lexx _) (leqnn _)).
elim: n p => // n IH p pp cn; apply: H => a ap.
have ap0 : q a <= q p0 := ltW (lt_le_trans ap pp).
apply: IH => //; rewrite ltnS in cn; apply: leq_trans cn.
rewrite -!size_filter; apply: (@uniq_leq_size _ (a :: _)).
  by rewrite /= mem_filter ltxx /= filter_uniq.
move=> z; rewrite !(inE, mem_filter) => /orP[/eqP ->|/andP[za ->]]; first by rewrite ap hs.
by rewrite (lt_trans za ap).
Qed.

(* ---- one shortest vector of each non-zero parity class ---- *)
Definition shortest_set V :=
  [/\ uniq V,
      forall p, (exists w, p = w *+ 2) \/ (exists y w, [/\ y \in V, p = y + w *+ 2 & q y <= q p]),
      forall y w, y \in V -> y <> w *+ 2 &
      forall y z w, y \in V -> z \in V -> z = y + w *+ 2 -> z = y].

Section Shortest.
Variable V : seq point.
Hypothesis sV : shortest_set V.
Lemma shortest_neq0 y : y \in V -> y != 0.
Proof. by case: sV => _ _ h _ yV; apply/eqP => y0; apply: (h y 0 yV); rewrite y0 mul0rn. Qed.
(* induction over sums of two vectors with a non-acute angle between them *)
Lemma descent K (P : point -> Prop) :
  (forall x, x \in V -> x \in K \/ exists y, [/\ y \in V, y != x & q y <= `|dot (L x) (L y)|]) ->
  P 0 -> (forall y, P y -> P (- y)) -> (forall y, y \in K -> P y) ->
  (forall a b, q a + q b <= q (a + b) -> P a -> P b -> P (a + b)) -> forall p, P p.
Proof.
case: sV => _ par _ cls red P0 PN PK PD.
(* a sum of two non-zero vectors *)
have split p a b : (forall a, q a < q p -> P a) -> p = a + b -> q a + q b <= q p -> a != 0 -> b != 0 -> P p.
  move=> IH e le a0 b0; rewrite e; apply: PD; first by rewrite -e.
    by apply: IH; apply: lt_le_trans le; rewrite ltr_addl q_gt0.
  by apply: IH; apply: lt_le_trans le; rewrite ltr_addr q_gt0.
(* a member of V which was discarded *)
have Vcase x : x \in V -> (forall a, q a < q x -> P a) -> P x.
  move=> xV IH; case: (red x xV) => [/PK //|[y [yV yx le]]].
  have [z [zE z0 xz le']] : exists z, [/\ q z = q y, z != 0, z != x & q y <= dot (L x) (L z)].
    case: (leP 0 (dot (L x) (L y))) => s.
      by exists y; split => //; [exact: shortest_neq0 | rewrite -(ger0_norm s)].
    exists (- y); split; rewrite ?qN ?oppr_eq0 ?shortest_neq0 //; last by rewrite LN dotNr -(ltr0_norm s).
    by apply: contraNneq yx => e; apply/eqP; apply: (cls x y y xV yV); rewrite -e mulr2n addKr.
  apply: (split x z (x - z)) => //; first by rewrite addrC subrK.
    rewrite qB zE -subr_ge0; have -> : q x - (q y + (q x - dot (L x) (L z) *+ 2 + q y)) = (dot (L x) (L z) - q y) *+ 2.
      rewrite !mulr2n; move: (q x) (q y) (dot _ _) => r s t; ringm R.
    by rewrite mulrn_wge0 // subr_ge0.
  by rewrite subr_eq0 eq_sym.
apply: lattice_ind => p IH.
case: (eqVneq p 0) => [->//|p0]; have qp : 0 < q p by rewrite q_gt0.
case: (par p) => [[w e]|[y [w [yV e le]]]].
  have w0 : w != 0 by apply: contraNneq p0 => w0; rewrite e w0 mul0rn.
  apply: (split p w w) => //.
  rewrite e q2 -mulr2n -[X in X <= _]mulr_natl; apply: ler_wpmul2r; rewrite ?dot_ge0 ?ler_nat //.
case: (eqVneq w 0) => [w0|w0].
  have pE : p = y by rewrite e w0 mul0rn addr0.
  by rewrite pE; apply: Vcase => //; rewrite -pE.
case: (eqVneq (y + w) 0) => [yw|yw].
  have pE : p = - y by rewrite e mulr2n addrA yw add0r; apply/eqP; rewrite -addr_eq0 addrC yw.
  by rewrite pE; apply/PN/Vcase => // a; rewrite -(qN y) -pE; apply: IH.
apply: (split p (y + w) w) => //; first by rewrite e mulr2n addrA.
(* parallelogram *)
have pw : q p = q (y + w) + dot (L (y + w)) (L w) *+ 2 + q w by rewrite -qD e mulr2n addrA.
have yy : q y = q (y + w) - dot (L (y + w)) (L w) *+ 2 + q w by rewrite -qB addrK.
move: le; rewrite yy pw; move: (dot (L (y + w)) (L w)) (q (y + w)) (q w) => s t r.
rewrite ler_add2r ler_add2l -subr_ge0 opprK -mulrnDl -mulr2n !pmulrn_lge0 // => h.
by rewrite ler_add2r ler_addl mulrn_wge0.
Qed.

Lemma uniq_pm : uniq (V ++ [seq - y | y <- V]).
Proof.
case: sV => u _ nz cls; rewrite cat_uniq u (map_inj_uniq (@oppr_inj _)) u andbT /=.
apply/hasPn => z /mapP[y yV ->]; apply/negP => yV'.
have e : - y = y by apply: (cls y (- y) (- y) yV yV'); rewrite mulr2n addrA subrr add0r.
have := shortest_neq0 yV; apply/negP; rewrite negbK; apply/eqP/rowP => i; move/rowP: e => /(_ i); rewrite !mxE; move: (y 0 i) => k; lia.
Qed.
Lemma mem_opp K y : (y \in [seq - y | y <- K]) = (- y \in K).
Proof. by rewrite -{1}(opprK y) (mem_map (@oppr_inj _)). Qed.
Lemma mem_pm K y : (- y \in K ++ [seq - y | y <- K]) = (y \in K ++ [seq - y | y <- K]).
Proof. by rewrite !mem_cat !mem_opp opprK orbC. Qed.
Lemma mem_gen K y : y \in K -> uniq K -> exists f : point -> int, y = \sum_(z <- K) z *~ f z.
Proof.
move=> yK uK; exists (fun z => (z == y)%:Z); rewrite (big_rem y) //= eqxx mulr1z big_seq big1 ?addr0 // => z.
by rewrite mem_rem_uniq // inE => /andP[/negPf -> _].
Qed.
Section Kept.
Variable K : seq point.
Hypothesis uK : uniq (K ++ [seq - y | y <- K]).
Hypothesis red : forall x, x \in V -> x \in K \/ exists y, [/\ y \in V, y != x & q y <= `|dot (L x) (L y)|].
Lemma kept_cell u : cell B (K ++ [seq - y | y <- K]) u <-> voronoi_cell B u.
Proof.
have sym y : y \in K ++ [seq - y | y <- K] -> - y \in K ++ [seq - y | y <- K] by rewrite mem_pm.
split=> [/(in_cell _ sym) h y|h y _]; last exact: h.
rewrite closerE; apply: le_trans (ler_norm _) _.
apply: (@descent K (fun y => `|dot u (L y) *+ 2| <= q y)) y => //.
- by rewrite L0 !dot0r mul0rn normr0.
- by move=> y; rewrite qN LN dotNr mulNrn normrN.
- by move=> y yK; apply: h; rewrite mem_cat yK.
move=> a b le ha hb; apply: le_trans le; rewrite LD dotDr mulrnDl.
by apply: le_trans (ler_norm_add _ _) _; apply: ler_add.
Qed.
Lemma kept_generates : generates (K ++ [seq - y | y <- K]).
Proof.
apply: (@descent K) => //.
- by exists (fun => 0); rewrite big1 // => y _; rewrite mulr0z.
- by move=> y [f ->]; exists (fun y => - f y); rewrite -sumrN; apply: eq_bigr => z _; rewrite mulrNz.
- by move=> y yK; apply: mem_gen => //; rewrite mem_cat yK.
move=> a b _ [f ->] [g ->]; exists (fun y => f y + g y); rewrite -big_split /=.
by apply: eq_bigr => y _; rewrite mulrzDl.
Qed.
End Kept.
End Shortest.

(* ---- the code ---- *)
Variable argsort : (point -> F) -> seq point -> seq point.
Hypothesis argsort_perm : forall key s, perm_eq (argsort key s) s.
Hypothesis argsort_sorted : forall key s, sorted (fun z w => key z <= key w) (argsort key s).
Local Notation vertex := (vertex rnd argsort).
Local Notation vertices := (vertices rnd argsort).
Local Notation voronoi := (voronoi rnd argsort).

Lemma half_norm e z : q (z *+ 2 - e) = 4%:R * dot (L z - 2^-1 *: L e) (L z - 2^-1 *: L e).
Proof.
have -> : L (z *+ 2 - e) = 2%:R *: (L z - 2^-1 *: L e).
  by rewrite LB L2 scalerBr scalerA mulfV ?pnatr_eq0 // scale1r.
by rewrite dotZl dotZr mulrA -natrM.
Qed.
Lemma vertexP fuel e y : vertex fuel B e = Some (Ok y) -> exists2 z, y = z *+ 2 - e & forall w, q y <= q (w *+ 2 - e).
Proof.
rewrite /CVP.vertex; case h: (cvp _ _ _ _ _ _ _ _) => [[[|z s]|]|] // [<-]; exists z => // w.
have [ss _ _ cl] := C57_cvp rndP argsort_perm argsort_sorted fB (isT : (0 < 1)%N) h.
case: s ss cl {h} => // _ cl; rewrite !half_norm ler_pmul2l ?ltr0n // -le_norm.
by case: (eqVneq w z) => [->//|wz]; apply: cl; rewrite inE.
Qed.
Lemma verticesP fuel es zs : vertices fuel B es = Some (Ok zs) -> exists2 g,
  zs = [seq g e | e <- es] & forall e, e \in es -> vertex fuel B e = Some (Ok (g e)).
Proof.
move=> h; exists (fun e => if vertex fuel B e is Some (Ok y) then y else 0).
  elim: es zs h => [|e es IH] zs /=; first by move=> [<-].
  by case: (vertex _ _ _) => [[y|]|] //; case: (vertices _ _ _) IH => [[ys|]|] //= IH [<-]; rewrite (IH ys).
elim: es zs h => [|e es IH] zs //=.
case ev: (vertex _ _ _) => [[y|]|] //; case: (vertices _ _ _) IH => [[ys|]|] //= IH _ e'; rewrite inE.
by case/orP => [/eqP ->|]; [rewrite ev | apply: IH].
Qed.
Lemma vertices_shortest fuel zs : vertices fuel B (displacements m) = Some (Ok zs) -> shortest_set zs.
Proof.
move=> /verticesP[g -> gP].
have par e : e \in displacements m -> exists2 z, g e = z *+ 2 - e & forall w, q (g e) <= q (w *+ 2 - e).
  by move=> /gP /vertexP.
have cls e e' w : e \in displacements m -> e' \in displacements m -> g e' = g e + w *+ 2 -> e' = e.
  move=> he he'; have [z -> _] := par e he; have [z' -> _] := par e' he' => E.
  apply: (@parity_disp _ _ _ (z' - z - w)) => //.
  apply/rowP => i; move/rowP: E => /(_ i); rewrite !mxE; move: (z 0 i) (z' 0 i) (w 0 i) (e 0 i) (e' 0 i) => k1 k2 k3 k4 k5; lia.
split.
- rewrite map_inj_in_uniq ?uniq_displacements // => e e' he he' E.
  by apply: (cls e' e 0) => //; rewrite mul0rn addr0.
- move=> p; case: (parity p) => [|[e [w [he pE]]]]; first by left.
  right; have [z gE gq] := par e he; exists (g e), (w - z); split; first exact: map_f.
    by rewrite gE mulrnBl addrC addrA subrK.
  by rewrite pE.
- move=> y w /mapP[e he ->]; have [z -> _] := par e he => E.
  apply: (@parity_disp0 _ e (z - w) he); rewrite mulrnBl -E opprB addrC subrK.
  by [].
move=> y z w /mapP[e he ->] /mapP[e' he' ->] E; by rewrite (cls e e' w).
Qed.

(* 299-314 *)
Definition passes rtol x y := `|2^-1 * gram B x y / gram B y y| < 2^-1 - rtol.
Lemma discard_sub rtol kept rest : subseq (discard B rtol kept rest) (kept ++ rest) /\ subseq kept (discard B rtol kept rest).
Proof.
elim: rest kept => [|x rest IH] kept /=; first by rewrite cats0.
case: ifP => _.
  have [h1 h2] := IH (rcons kept x); rewrite cat_rcons in h1; split=> //.
  by apply: subseq_trans h2; apply: subseq_rcons.
have [h1 h2] := IH kept; split=> //; apply: subseq_trans h1 _.
by apply: cat_subseq => //; apply: subseq_cons.
Qed.
Lemma discard_reason rtol kept rest x : uniq (kept ++ rest) -> x \in rest ->
  x \in discard B rtol kept rest \/ exists2 y, y \in kept ++ rest & (y != x) && ~~ passes rtol x y.
Proof.
elim: rest kept => // z rest IH kept u /=; rewrite inE => /orP[/eqP ->|xr]; last first.
  case: ifP => _; first by have := IH (rcons kept z); rewrite cat_rcons => /(_ u xr).
  have u' : uniq (kept ++ rest) by apply: subseq_uniq u; apply: cat_subseq => //; apply: subseq_cons.
  case: (IH kept u' xr) => [->|[y yk h]]; [by left | right; exists y => //].
  by move: yk; rewrite !mem_cat inE => /orP[->//|->]; rewrite !orbT.
case: ifP => r.
  left; have [_ /mem_subseq h] := discard_sub rtol (rcons kept z) rest.
  by apply: h; rewrite mem_rcons mem_head.
right; move/negbT: r; rewrite -has_predC => /hasP[y yk h]; exists y.
  by move: yk; rewrite !mem_cat inE => /orP[->//|->]; rewrite !orbT.
apply/andP; split; last exact: h.
apply: contraTneq yk => ->; move: u; rewrite (perm_uniq (_ : perm_eq _ (z :: kept ++ rest))) => [/andP[]//|].
by rewrite -cat1s perm_catCA.
Qed.
Lemma discard_pairs rtol kept rest x y : uniq (kept ++ rest) -> x \in rest -> x \in discard B rtol kept rest ->
  y \in discard B rtol kept rest -> y != x -> passes rtol x y.
Proof.
elim: rest kept => // z rest IH kept u /=; rewrite inE => /orP[/eqP ->|xr]; last first.
  case: ifP => _; first by have := IH (rcons kept z); rewrite cat_rcons => /(_ u xr).
  apply: IH => //; by apply: subseq_uniq u; apply: cat_subseq => //; apply: subseq_cons.
case: ifP => r zd yd yz.
  move/allP: r; apply; have [/mem_subseq h _] := discard_sub rtol (rcons kept z) rest.
  by have := h y yd; rewrite cat_rcons !mem_cat inE (negPf yz).
exfalso; have [/mem_subseq /(_ z zd) h _] := discard_sub rtol kept rest.
move: u; rewrite (perm_uniq (_ : perm_eq _ (z :: kept ++ rest))) => [/andP[/negP]//|].
by rewrite -cat1s perm_catCA.
Qed.
Lemma passesE x y : y != 0 -> passes 0 x y = (`|dot (L x) (L y)| < q y).
Proof.
move=> y0; have g0 : 0 < q y by rewrite q_gt0.
rewrite /passes /gram subr0 !normrM !normfV (gtr0_norm g0) ltr_pdivr_mulr // normr_nat.
by rewrite ltr_pmul2l ?invr_gt0 ?ltr0n.
Qed.

Lemma voronoiP fuel reduced rtol V : voronoi fuel B reduced rtol = Some (Ok V) -> exists2 zs,
  shortest_set zs & V = (if reduced then discard B rtol [::] zs else zs) ++ [seq - y | y <- if reduced then discard B rtol [::] zs else zs].
Proof.
rewrite /CVP.voronoi; case h: (vertices _ _ _) => [[zs|]|] // [<-].
by exists zs => //; exact: vertices_shortest h.
Qed.
Lemma vertices_size fuel es zs : vertices fuel B es = Some (Ok zs) -> size zs = size es.
Proof. by move=> /verticesP[g -> _]; rewrite size_map. Qed.
Lemma uniq_sub_pm (zs K : seq point) : uniq (zs ++ [seq - y | y <- zs]) -> subseq K zs -> uniq (K ++ [seq - y | y <- K]).
Proof. by move=> u s; apply: subseq_uniq u; apply: cat_subseq => //; apply: map_subseq. Qed.

Theorem C58_vectors fuel rtol V : voronoi fuel B false rtol = Some (Ok V) ->
  [/\ size V = (2 * (2 ^ N - 1))%N, uniq V, 0 \notin V & forall y, (- y \in V) = (y \in V)].
Proof.
move=> h; have [zs sz VE] := voronoiP h; rewrite VE /=; split; last exact: mem_pm.
- move: h; rewrite /CVP.voronoi; case h: (vertices _ _ _) => [[zs'|]|] //= [e].
  rewrite -VE -e size_cat size_map (vertices_size h) size_displacements addnn -mul2n subn1.
  by [].
- exact: uniq_pm.
rewrite mem_cat mem_opp oppr0 orbb; apply/negP => z0.
by have := shortest_neq0 sz z0; rewrite eqxx.
Qed.
(* finitely many half spaces define the Voronoi cell *)
Theorem C58_cell fuel rtol V u : voronoi fuel B false rtol = Some (Ok V) -> cell B V u <-> voronoi_cell B u.
Proof. by move=> h; have [zs sz ->] := voronoiP h; apply: (kept_cell sz); left. Qed.
Theorem C58_generates fuel rtol V : voronoi fuel B false rtol = Some (Ok V) -> generates V.
Proof. by move=> h; have [zs sz ->] := voronoiP h; apply: (kept_generates sz); [exact: uniq_pm | left]. Qed.

(* reduced = True without tolerance *)
Theorem C88_vectors fuel rtol V : voronoi fuel B true rtol = Some (Ok V) ->
  [/\ uniq V, 0 \notin V & forall y, (- y \in V) = (y \in V)].
Proof.
move=> h; have [zs sz ->] := voronoiP h; have [sub _] := discard_sub rtol [::] zs; split; last exact: mem_pm.
  exact: uniq_sub_pm (uniq_pm sz) sub.
rewrite mem_cat mem_opp oppr0 orbb; apply/negP => /(mem_subseq sub) z0.
by have := shortest_neq0 sz z0; rewrite eqxx.
Qed.
Lemma reduced_reason zs : shortest_set zs -> forall x, x \in zs ->
  x \in discard B 0 [::] zs \/ exists y, [/\ y \in zs, y != x & q y <= `|dot (L x) (L y)|].
Proof.
move=> sz x xz; have uz : uniq zs by case: sz.
case: (@discard_reason 0 [::] zs x uz xz) => [->|[y yz /andP[yx np]]]; [by left | right; exists y; split => //].
by move: np; rewrite passesE ?(shortest_neq0 sz) // -leNgt.
Qed.
Theorem C88_cell fuel V u : voronoi fuel B true 0 = Some (Ok V) -> cell B V u <-> voronoi_cell B u.
Proof.
move=> h; have [zs sz ->] := voronoiP h.
by apply: (kept_cell sz); apply: reduced_reason.
Qed.
Theorem C88_generates fuel V : voronoi fuel B true 0 = Some (Ok V) -> generates V.
Proof.
move=> h; have [zs sz ->] := voronoiP h; have [sub _] := discard_sub 0 [::] zs.
by apply: (kept_generates sz (uniq_sub_pm (uniq_pm sz) sub)); apply: reduced_reason.
Qed.
(* no vector can be left out: some point is cut off by x alone *)
Lemma scale_up (f g : point -> F) (s : seq point) : (forall y, y \in s -> 0 <= f y < g y) ->
  exists2 t : F, 1 < t & forall y, y \in s -> t * f y <= g y.
Proof.
elim: s => [|y s IH] h; first by exists 2%:R; rewrite ?ltr1n.
have [|t t1 tP] := IH; first by move=> z zs; apply: h; rewrite inE zs orbT.
have /andP[f0 fg] := h y (mem_head _ _).
case: (eqVneq (f y) 0) => [fy|fy].
  by exists t => // z; rewrite inE => /orP[/eqP ->|/tP//]; rewrite fy mulr0 (ltW (le_lt_trans f0 fg)).
have fp : 0 < f y by rewrite lt_def fy.
exists (Num.min t (g y / f y)); first by rewrite lt_minr t1 ltr_pdivl_mulr // mul1r.
move=> z; rewrite inE => /orP[/eqP ->|zs].
  by rewrite -ler_pdivl_mulr // le_minl lexx orbT.
have /andP[fz _] : 0 <= f z < g z by apply: h; rewrite inE zs orbT.
by apply: le_trans (tP z zs); rewrite ler_wpmul2r // le_minl lexx.
Qed.
Theorem C88_minimal fuel rtol V x : 0 <= rtol -> voronoi fuel B true rtol = Some (Ok V) -> x \in V ->
  exists u, ~ cell B V u /\ cell B [seq y <- V | (y != x) && (y != - x)] u.
Proof.
move=> r0 h; have [zs sz ->] := voronoiP h; rewrite /=; set K := discard B rtol [::] zs.
have [sub _] := discard_sub rtol [::] zs; have uz : uniq zs by case: sz.
have pair a b : a \in K -> b \in K -> b != a -> `|dot (L a) (L b)| < q b.
  move=> aK bK ba; have b0 : b != 0 by apply: (shortest_neq0 sz); apply: (mem_subseq sub).
  rewrite -passesE // /passes subr0; apply: lt_le_trans (@discard_pairs rtol [::] zs a b uz (mem_subseq sub aK) aK bK ba) _.
  by rewrite ger_addl oppr_le0.
(* enough for x in K *)
have G z : z \in K -> exists u, ~ cell B (K ++ [seq - y | y <- K]) u /\ cell B [seq y <- K ++ [seq - y | y <- K] | (y != z) && (y != - z)] u.
  move=> zK; have z0 : 0 < q z by rewrite q_gt0; apply: (shortest_neq0 sz); apply: (mem_subseq sub).
  have [t t1 tP] : exists2 t : F, 1 < t & forall y, y \in K -> y != z -> t * `|dot (L z) (L y)| <= q y.
    have [|t t1 tP] := @scale_up (fun y => `|dot (L z) (L y)|) (fun y => q y) [seq y <- K | y != z].
      by move=> y; rewrite mem_filter normr_ge0 /= => /andP[yz yK]; apply: pair.
    by exists t => // y yK yz; apply: tP; rewrite mem_filter yz.
  exists ((t / 2%:R) *: L z); split.
    move=> /(_ z); rewrite mem_cat zK => /(_ isT); rewrite closerE dotZl -mulrnAl -(mulr_natr (t / _)) divfK ?pnatr_eq0 //.
    by rewrite ger_pmull // leNgt t1.
  move=> y; rewrite mem_filter mem_cat mem_opp => /andP[/andP[y1 y2] yK].
  rewrite closerE dotZl -mulrnAl -(mulr_natr (t / _)) divfK ?pnatr_eq0 //.
  have t0 : 0 <= t by apply: ltW (lt_trans ltr01 t1).
  apply: le_trans (_ : t * `|dot (L z) (L y)| <= _); first by rewrite ler_wpmul2l ?ler_norm.
  case/orP: yK => yK; first exact: tP.
  by rewrite -normrN -dotNr -LN -(qN y); apply: tP => //; rewrite -(opprK z) (inj_eq (@oppr_inj _)).
rewrite mem_cat => /orP[/G//|]; rewrite mem_opp => /G[u [h1 h2]]; exists u; split=> // y.
rewrite mem_filter => /andP[/andP[y1 y2] yK]; apply: h2; by rewrite mem_filter yK opprK y1 y2.
Qed.

(* the computation ends *)
Lemma loop_mono c vec rad n g rtol fuel fuel' l r : (fuel <= fuel')%N ->
  cvp_loop argsort B c vec rad n g rtol fuel l = Some r -> cvp_loop argsort B c vec rad n g rtol fuel' l = Some r.
Proof.
elim: fuel fuel' l => // fuel IH [|fuel'] l // le /=; case: (cvp_step _ _ _ _ _ _ _ _ _) => // h.
exact: IH h.
Qed.
Lemma vertex_mono fuel fuel' e y : (fuel <= fuel')%N -> vertex fuel B e = Some (Ok y) -> vertex fuel' B e = Some (Ok y).
Proof.
move=> le; rewrite /CVP.vertex /cvp gram_unit //=.
case h: (cvp_loop _ _ _ _ _ _ _ _ fuel _) => [[[|z s]|]|] //; by rewrite (loop_mono le h).
Qed.
Lemma vertex_ends e : exists fuel y, vertex fuel B e = Some (Ok y).
Proof.
have [fuel [s h]] := C57_terminates rndP argsort_perm argsort_sorted (2^-1 *: L e) fB 0 (isT : (0 < 1)%N).
exists fuel; rewrite /CVP.vertex h.
have [ss _ _ _] := C57_cvp rndP argsort_perm argsort_sorted fB (isT : (0 < 1)%N) h.
by case: s ss {h} => // z s _; exists (z *+ 2 - e).
Qed.
Lemma vertices_end es : exists fuel zs, forall fuel', (fuel <= fuel')%N -> vertices fuel' B es = Some (Ok zs).
Proof.
elim: es => [|e es [f1 [zs h1]]]; first by exists 0%N, [::].
have [f2 [y h2]] := vertex_ends e; exists (maxn f1 f2), (y :: zs) => fuel'; rewrite geq_max => /andP[l1 l2] /=.
by rewrite (vertex_mono l2 h2) h1.
Qed.
Theorem C58_terminates reduced rtol : exists fuel V, voronoi fuel B reduced rtol = Some (Ok V).
Proof.
have [fuel [zs /(_ _ (leqnn _)) h]] := vertices_end (displacements m).
by exists fuel; rewrite /CVP.voronoi h; eexists.
Qed.
End Lattice.

(* with a tolerance the vectors kept need not define a cell nor generate the lattice: a rectangular lattice with sides rtol and 1 *)
Lemma sq_ge1 (k : int) : k != 0 -> 1 <= k * k.
Proof. case: (ltP 0 k) => h k0; nia. Qed.
Lemma unit_norm (k l : int) : k * k = 1 -> l * l = 1 -> `|k * l| = 1.
Proof.
have h (j : int) : j * j = 1 -> j = 1 \/ j = -1 by move=> e; case: (ltP 0 j) => hj; [left|right]; nia.
by move=> /h[->|->] /h[->|->].
Qed.
Lemma odd_neq0 (k : int) : k *+ 2 - 1 != 0. Proof. apply/eqP; lia. Qed.
Lemma eq_one (j : int) : 1 <= j -> j <= 1 -> j = 1. Proof. lia. Qed.
Lemma discard_cons (F : rcfType) m d (B : 'M[F]_(m.+1, d)) rtol kept x rest : discard B rtol kept (x :: rest) =
  if relevant B rtol (kept ++ rest) x then discard B rtol (rcons kept x) rest else discard B rtol kept rest.
Proof. by []. Qed.
Section Thin.
Variable F : rcfType.
Let R := [comRingType of F].
Add Ring Rt : (R_ring R).
Variable rnd : F -> int.
Hypothesis rndP : forall x, `|x - (rnd x)%:~R| <= 2^-1.
Variable argsort : ('rV[int]_2 -> F) -> seq 'rV[int]_2 -> seq 'rV[int]_2.
Hypothesis argsort_perm : forall key s, perm_eq (argsort key s) s.
Hypothesis argsort_sorted : forall key s, sorted (fun z w => key z <= key w) (argsort key s).
Definition thin (e : F) : 'M[F]_2 := \matrix_(i, j) if i == j then if i == 0 then e else 1 else 0.
Local Notation L e := (lattice_point (thin e)).
Lemma thin_point e (z : 'rV[int]_2) : L e z = \row_i if i == 0 then (z 0 0)%:~R * e else (z 0 1)%:~R.
Proof.
apply/rowP => i; rewrite !mxE big_ord_recl big_ord1 !mxE.
case: i => [[|[|]]] //= h; rewrite ?mulr0 ?addr0 ?mulr1 ?add0r //.
by congr ((z _ _)%:~R); apply: val_inj.
Qed.
Lemma thin_dot e u (z : 'rV[int]_2) : dot u (L e z) = u 0 0 * ((z 0 0)%:~R * e) + u 0 1 * (z 0 1)%:~R.
Proof.
rewrite /dot thin_point big_ord_recl big_ord1 !mxE /=; congr (_ + u _ _ * _); exact: val_inj.
Qed.
Lemma thin_gram e (x y : 'rV[int]_2) : gram (thin e) x y = (x 0 0 * y 0 0)%:~R * e ^+ 2 + (x 0 1 * y 0 1)%:~R.
Proof.
rewrite /gram thin_dot thin_point !mxE /= mulrACA -expr2 -!intrM; congr (_ + _).
Qed.
Lemma thin_free e : e != 0 -> row_free (thin e).
Proof.
move=> e0; rewrite row_free_unit unitmxE unitfE (expand_det_row _ 0) big_ord_recl big_ord1 !mxE /= mul0r addr0.
by rewrite mulf_neq0 // /cofactor det_mx11 !mxE /= addn0 expr0 mul1r oner_neq0.
Qed.
Theorem C88_tolerance_refuted rtol : 0 < rtol -> rtol < 4%:R^-1 -> exists fuel V,
  [/\ voronoi rnd argsort fuel (thin rtol) true rtol = Some (Ok V), ~ generates V &
      exists u, cell (thin rtol) V u /\ ~ voronoi_cell (thin rtol) u].
Proof.
move=> r0 r4; have r1 : rtol < 1 by apply: lt_trans r4 _; rewrite invf_lt1 ?ltr0n ?ltr1n.
have fB : row_free (thin rtol) by apply: thin_free; rewrite gt_eqF.
have [fuel [V h]] := C58_terminates fB rndP argsort_perm argsort_sorted true rtol.
exists fuel, V.
suff V1 y : y \in V -> y 0 1 = 0.
  split=> //.
    move=> /(_ (\row_i if i == 0 then 0 else 1)) [f] /rowP /(_ 1); rewrite mxE /= summxE big_seq big1 //.
    move=> y /V1 y1; rewrite -scaler_int !mxE y1 mulr0.
    by [].
  exists (\row_i if i == 0 then 0 else 2%:R); split.
    by move=> y /V1 y1; rewrite closerE thin_dot !mxE /= y1 mul0r mulr0 addr0 mul0rn dot_ge0.
  move=> /(_ (\row_i if i == 0 then 0 else 1)); rewrite closerE -[dot (L _ _) _]/(gram _ _ _) thin_gram thin_dot !mxE /=.
  by rewrite mul0r !mul0r !add0r !mulr1 -mulrnA -[1%:~R]/(1%:R) ler_nat.
have e0 : 0 < rtol ^+ 2 by rewrite exprn_gt0.
have e1 : rtol ^+ 2 < 1 by rewrite exprn_ilt1 // ltW.
have er : rtol ^+ 2 <= rtol by rewrite expr2 ger_pmull // ltW.
move: h; rewrite /CVP.voronoi; case hv: (vertices _ _ _ _ _) => [[zs|]|] // [<-].
have [g zE gP] := verticesP hv.
pose pt a b : 'rV[int]_2 := \row_i if i == 0 then a else b.
have dE : displacements 1 = [:: pt 0 1; pt 1 0; pt 1 1].
  rewrite /displacements /=; congr [:: _; _; _]; apply/rowP => i; rewrite !mxE; by case: i => [[|[|]]].
(* the lengths *)
pose qz (a b : int) : F := (a * a)%:~R * rtol ^+ 2 + (b * b)%:~R.
have G a b : pt a b \in displacements 1 -> exists k l : int, [/\ (g (pt a b)) 0 0 = k *+ 2 - a, (g (pt a b)) 0 1 = l *+ 2 - b &
    qz (g (pt a b) 0 0) (g (pt a b) 0 1) <= qz a b].
  move=> /gP /(vertexP fB rndP argsort_perm argsort_sorted)[z -> hz]; exists (z 0 0), (z 0 1).
  split; [by rewrite !mxE | by rewrite !mxE |].
  have := hz (pt a b); rewrite -![dot _ _]/(gram _ _ _) !thin_gram /qz => le; apply: le_trans le _.
  by rewrite !mxE /= !addrK.
have Db : pt 0 1 \in displacements 1 by rewrite dE !inE eqxx ?orbT.
have Da : pt 1 0 \in displacements 1 by rewrite dE !inE eqxx ?orbT.
have Dab : pt 1 1 \in displacements 1 by rewrite dE !inE eqxx ?orbT.
have := G _ _ Db; have := G _ _ Da; have := G _ _ Dab.
rewrite zE dE [map _ _]/=; set b := g (pt 0 1); set a := g (pt 1 0); set ab := g (pt 1 1).
move=> [k1 [l1 [A0 A1 A2]]] [k2 [l2 [B0 B1 B2]]] [k3 [l3 [C0 C1 C2]]].
have sq (k : int) : k != 0 -> (1 : F) <= (k * k)%:~R by move=> k0; rewrite (ler_int _ 1) sq_ge1.
have sq0 (k : int) : (0 : F) <= (k * k)%:~R by rewrite (ler_int _ 0) -expr2 sqr_ge0.
have le1 (k : int) : ((k * k)%:~R : F) <= 1 -> k * k <= 1 by rewrite (ler_int _ _ 1).
have [b0 b1] : b 0 0 = 0 /\ b 0 1 * b 0 1 = 1.
  move: C2; rewrite /qz mulr0 mulr1 mul0r add0r => C2.
  have o : (1 : F) <= (b 0 1 * b 0 1)%:~R by apply: sq; rewrite C1 odd_neq0.
  split; last first.
    have : b 0 1 * b 0 1 <= 1 by apply: le1; apply: le_trans C2; rewrite ler_addr mulr_ge0 // ltW.
    by apply: eq_one; rewrite -(ler_int F).
  apply/eqP/negPn/negP => /sq n0; move: C2; apply/negP; rewrite -ltNge; apply: le_lt_trans o _.
  by rewrite ltr_addr mulr_gt0 // (lt_le_trans ltr01 n0).
have [a1 a0] : a 0 1 = 0 /\ a 0 0 * a 0 0 = 1.
  move: B2; rewrite /qz mulr0 mulr1 addr0 mul1r => B2.
  have z : a 0 1 = 0.
    apply/eqP/negPn/negP => /sq n0; move: B2; apply/negP; rewrite -ltNge; apply: lt_le_trans e1 _.
    by apply: le_trans n0 _; rewrite ler_addr mulr_ge0 // ltW.
  split=> //; move: B2; rewrite z mulr0 addr0 ger_pmull // => /le1 le.
  have o : (1 : F) <= (a 0 0 * a 0 0)%:~R by apply: sq; rewrite B0 odd_neq0.
  by apply: eq_one => //; rewrite -(ler_int F).
have [c0 c1] : ab 0 0 * ab 0 0 = 1 /\ ab 0 1 * ab 0 1 = 1.
  have o0 : (1 : F) <= (ab 0 0 * ab 0 0)%:~R by apply: sq; rewrite A0 odd_neq0.
  have o1 : (1 : F) <= (ab 0 1 * ab 0 1)%:~R by apply: sq; rewrite A1 odd_neq0.
  move: A2; rewrite /qz mulr1 mul1r => A2; split.
    have : ab 0 0 * ab 0 0 <= 1.
      apply: le1; rewrite -(ler_pmul2r e0) mul1r -(ler_add2r 1); apply: le_trans A2; by rewrite ler_add2l.
    by apply: eq_one; rewrite -(ler_int F).
  have : ab 0 1 * ab 0 1 <= 1.
    by apply: le1; rewrite -(ler_add2l (rtol ^+ 2)); apply: le_trans A2; rewrite ler_add2r ler_pmull.
  by apply: eq_one; rewrite -(ler_int F).
have unit (k l : int) : k * k = 1 -> l * l = 1 -> `|(k * l)%:~R : F| = 1.
  by move=> kk ll; rewrite -intr_norm (unit_norm kk ll).
have p1 : 0 < rtol ^+ 2 + 1 by rewrite addr_gt0.
have n2 : `|2^-1 : F| = 2^-1 by rewrite normfV normr_nat.
have n1 : `|(rtol ^+ 2 + 1)^-1| = (rtol ^+ 2 + 1)^-1 by rewrite ger0_norm // invr_ge0 ltW.
have ex : (2^-1 - rtol) * (rtol ^+ 2 + 1) = 2^-1 * rtol ^+ 2 + (2^-1 - (rtol * rtol ^+ 2 + rtol)).
  by move: (rtol ^+ 2) (2^-1 : F) => s t; ringm R.
have gb : relevant (thin rtol) rtol [:: a; ab] b = false.
  rewrite /relevant /= andbT andbC !thin_gram b0 c0 c1 mul0r mul0r add0r mul1r !normrM unit // n2 n1 mulr1.
  apply/negbTE; rewrite negb_and -leNgt; apply/orP; left; rewrite ler_pdivl_mulr // ex addrCA ger_addl opprD addrCA addrA.
  rewrite subr_le0; apply: le_trans er; apply: (@le_trans _ _ (2^-1 * rtol ^+ 2)).
    by rewrite ger_addr oppr_le0 mulr_ge0 // ltW.
  by rewrite ger_pmull // invf_le1 ?ltr0n // ler1n.
have nX (k l : int) : k * k = 1 -> l * l = 1 -> `|(k * l)%:~R * rtol ^+ 2| = rtol ^+ 2.
  by move=> kk ll; rewrite normrM unit // mul1r gtr0_norm.
have ga : relevant (thin rtol) rtol [:: ab] a = true.
  rewrite /relevant /= andbT !thin_gram a1 c0 c1 !mul0r addr0 mul1r 2!normrM nX // n2 n1.
  rewrite ltr_pdivr_mulr // ex ltr_addl subr_gt0.
  apply: lt_trans (_ : rtol + rtol < _); first by rewrite ltr_add2r gtr_pmulr.
  have -> : 2^-1 = 4%:R^-1 + 4%:R^-1 :> F by rewrite -mulr2n -[_ *+ 2]mulr_natr -[4%N]/(2 * 2)%N natrM invfM mulfVK ?pnatr_eq0.
  exact: ltr_add.
have gab : relevant (thin rtol) rtol [:: a] ab = false.
  rewrite /relevant /= andbT !thin_gram a1 a0 !mulr0 !addr0 mul1r 2!normrM nX // n2 normfV (gtr0_norm e0) mulfK ?gt_eqF //.
  by apply/negbTE; rewrite -leNgt ger_addl oppr_le0 ltW.
rewrite discard_cons [_ ++ [:: a; ab]]/= gb discard_cons [_ ++ [:: ab]]/= ga discard_cons [_ ++ [::]]/= gab /= !inE => /orP[/eqP ->//|/eqP ->]; by rewrite mxE a1 oppr0.
Qed.
End Thin.

(* concrete case: the neighbours in the chain of integers *)
Section Chain.
Variable F : rcfType.
Variable rnd : F -> int.
Hypothesis rndP : forall x, `|x - (rnd x)%:~R| <= 2^-1.
Variable argsort : ('rV[int]_1 -> F) -> seq 'rV[int]_1 -> seq 'rV[int]_1.
Hypothesis argsort_perm : forall key s, perm_eq (argsort key s) s.
Hypothesis argsort_sorted : forall key s, sorted (fun z w => key z <= key w) (argsort key s).
Example C58_example : exists fuel V, voronoi rnd argsort fuel (1%:M : 'M[F]_1) true 0 = Some (Ok V) /\
  forall y, (y \in V) = ((y 0 0 == 1) || (y 0 0 == -1)).
Proof.
have fB : row_free (1%:M : 'M[F]_1) by rewrite row_free_unit unitmx1.
have [fuel [V h]] := C58_terminates fB rndP argsort_perm argsort_sorted true 0; exists fuel, V; split=> //.
move: h; rewrite /voronoi; case hv: (vertices _ _ _ _ _) => [[zs|]|] // [<-] y.
have [g zE gP] := verticesP hv; rewrite zE.
pose e : 'rV[int]_1 := const_mx 1.
have dE : displacements 0 = [:: e] by rewrite /displacements /=; congr [:: _]; apply/rowP => i; rewrite !mxE (ord1 i).
have he : e \in displacements 0 by rewrite dE mem_head.
have [z gE hz] := vertexP fB rndP argsort_perm argsort_sorted (gP e he).
have q1 (p : 'rV[int]_1) : dot (lattice_point (1%:M : 'M[F]_1) p) (lattice_point 1%:M p) = (p 0 0 * p 0 0)%:~R.
  by rewrite /dot big_ord1 /lattice_point mulmx1 !mxE -intrM.
have := hz e; rewrite !q1 ler_int gE !mxE addrK => le.
have {le} z2 : z 0 0 + z 0 0 - 1 = 1 \/ z 0 0 + z 0 0 - 1 = -1 by move: (z 0 0) le => k le; nia.
rewrite dE /= !inE gE.
have eqE (p : 'rV[int]_1) : (y == p) = (y 0 0 == p 0 0).
  by apply/eqP/eqP => [->//|h]; apply/rowP => i; rewrite (ord1 i).
rewrite !eqE !mxE; case: z2 => ->; rewrite ?opprK //; exact: orbC.
Qed.
End Chain.

Print Assumptions C58_vectors.
Print Assumptions C58_cell.
Print Assumptions C58_generates.
Print Assumptions C58_terminates.
Print Assumptions C58_example.
Print Assumptions C88_vectors.
Print Assumptions C88_cell.
Print Assumptions C88_generates.
Print Assumptions C88_minimal.
Print Assumptions C88_tolerance_refuted.
