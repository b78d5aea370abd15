(* C59: the elements returned by bravais_point_group map the lattice onto itself *)
From mathcomp Require Import all_ssreflect all_algebra zify.
From mathcomp Require Import complex.
From Verif Require Import Prelude PySet GroupGen GroupGenProofs GroupSpec PGE Spin Factories LinSpan NullSpec Complement RingTac.
From Verif Require Import Continuum PropContinuum LLL PropLLL CVP PropCVP PropVoronoi Bravais.

Set Implicit Arguments.
Unset Strict Implicit.
Unset Printing Implicit Defensive.
Import Order.TTheory GRing.Theory Num.Theory.
Local Open Scope ring_scope.

Section Lattice.
Variables (F : rcfType) (m : nat).
Local Notation N := m.+1.
Local Notation point := 'rV[int]_N.
Implicit Types (B P : 'M[F]_N) (R : 'M[F]_N) (v : 'rV[F]_N) (y z : point) (V : seq point).

(* ---- specification ---- *)
Definition in_lattice d (B : 'M[F]_(N, d)) (v : 'rV[F]_d) := exists z : point, v = lattice_point B z.
(* R maps the lattice onto itself *)
Definition preserves B R := forall v, in_lattice B v <-> in_lattice B (act R v).

Lemma actD R v w : act R (v + w) = act R v + act R w. Proof. exact: mulmxDl. Qed.
Lemma act_mul R R' v : act (R *m R') v = act R (act R' v). Proof. by rewrite /act trmx_mul mulmxA. Qed.
Lemma preserves_mul B R R' : preserves B R -> preserves B R' -> preserves B (R *m R').
Proof. by move=> h h' v; rewrite act_mul; apply: iff_trans (h' v) (h _). Qed.
Lemma preserves1 B : preserves B 1%:M. Proof. by move=> v; rewrite /act trmx1 mulmx1. Qed.
Lemma preservesN1 B : preserves B (- 1%:M).
Proof.
move=> v; rewrite /act linearN /= trmx1 mulmxN mulmx1.
by split=> [[z ->]|[z e]]; [exists (- z) | exists (- z); rewrite LN -e opprK]; rewrite ?LN.
Qed.
Lemma same_in_lattice B P v : same_lattice B P -> in_lattice P v -> in_lattice B v.
Proof.
move=> [T uT ->] [z ->]; exists (z *m T); by rewrite /lattice_point mulmxA map_mxM.
Qed.
Lemma same_preserves B P R : same_lattice B P -> preserves P R -> preserves B R.
Proof.
move=> s h v; have e w : in_lattice B w <-> in_lattice P w by split; apply: same_in_lattice => //; exact: same_sym.
by rewrite !e.
Qed.

Lemma Lz B z (k : int) : lattice_point B (z *~ k) = lattice_point B z *~ k.
Proof.
have n (j : nat) : lattice_point B (z *+ j) = lattice_point B z *+ j.
  by elim: j => [|j IH]; rewrite ?mulr0n ?L0 // !mulrS LD IH.
by case: k => j; rewrite ?NegzE ?mulrNz ?LN -!pmulrn n.
Qed.
Lemma act_z R v (k : int) : act R (v *~ k) = act R v *~ k.
Proof. by rewrite /act -!scaler_int -scalemxAl. Qed.

Lemma generate_preserves B V R : row_free B -> generates V ->
  (forall y, y \in V -> in_lattice B (act R (lattice_point B y))) ->
  (forall y, y \in V -> exists z, lattice_point B y = act R (lattice_point B z)) -> preserves B R.
Proof.
move=> fB gen into onto.
have I z : in_lattice B (act R (lattice_point B z)).
  have [f ->] := gen z; elim: V into {onto gen} => [|y V IH] into.
    by rewrite big_nil L0 /act mul0mx; exists 0; rewrite L0.
  rewrite big_cons LD actD; have [|z1 ->] := IH; first by move=> w wV; apply: into; rewrite inE wV orbT.
  have [z2 e] := into y (mem_head _ _).
  exists (z2 *~ f y + z1); rewrite LD; congr (_ + _).
  by rewrite !Lz act_z e.
have O z : exists w, lattice_point B z = act R (lattice_point B w).
  have [f ->] := gen z; elim: V onto {into gen} => [|y V IH] onto.
    by exists 0; rewrite big_nil L0 /act mul0mx.
  rewrite big_cons LD; have [|z1 ->] := IH; first by move=> w wV; apply: onto; rewrite inE wV orbT.
  have [z2 e] := onto y (mem_head _ _).
  exists (z2 *~ f y + z1); rewrite LD actD; congr (_ + _).
  by rewrite !Lz act_z e.
have uB : B \in unitmx by rewrite -row_free_unit.
have uR : R^T \in unitmx.
  have [X BX] : exists X, B = X *m R^T.
    have c i : exists w : point, row i B == act R (lattice_point B w).
      have [w e] := O (delta_mx 0 i); exists w; rewrite -e /lattice_point.
      by rewrite map_delta_mx -rowE.
    exists (\matrix_i lattice_point B (xchoose (c i))); apply/row_matrixP => i.
    by rewrite row_mul rowK; exact/eqP/(xchooseP (c i)).
  by move: uB; rewrite {1}BX unitmx_mul => /andP[].
move=> v; split=> [[z ->]|[z e]]; first exact: I.
have [w ew] := O z; exists w; have : act R v = act R (lattice_point B w) by rewrite e ew.
by rewrite /act => /(can_inj (mulmxK uR)).
Qed.

(* ---- the check ---- *)
Variable n : nat.
Local Notation pge := (pge F N n).
Lemma check_preserves B K (gens : seq pge) g : row_free B -> generates (K ++ [seq - y | y <- K]) ->
  check_bravais_symmetry [seq lattice_point B y | y <- K] gens -> List.In g gens -> preserves B (pR g).
Proof.
move=> fB gen; rewrite /check_bravais_symmetry.
set nb := _ ++ _; have enb : nb = [seq lattice_point B y | y <- K ++ [seq - y | y <- K]].
  by rewrite map_cat; congr (_ ++ _); elim: (K) => [|y s IH] /=; rewrite ?LN ?IH.
move=> /allIn h /h {h} /andP[/allP onto /allP into].
apply: generate_preserves fB gen _ _ => y yV.
- have := into (act (pR g) (lattice_point B y)); rewrite enb map_f ?map_f // => /(_ isT) /mapP[z _ ->].
  by exists z.
- have := onto (lattice_point B y); rewrite {1}enb map_f // => /(_ isT) /mapP[v]; rewrite enb => /mapP[z _ ->] ->.
  by exists z.
Qed.
End Lattice.

(* ---- two of the three shortest vectors of a two-dimensional lattice generate it ---- *)
Section Two.
Variables (F : rcfType).
Local Notation point := 'rV[int]_2.
Variable B : 'M[F]_2.
Hypothesis fB : row_free B.
Variable rnd : F -> int.
Hypothesis rndP : forall x, `|x - (rnd x)%:~R| <= 2^-1.
Local Notation L := (lattice_point B).
Local Notation q p := (dot (L p) (L p)).
Let R := [comRingType of F].
Add Ring Rr : (R_ring R).

Variables (y1 y2 w k : point).
Lemma four : w = y1 + y2 + k *+ 2 -> q k + q (k + y1) + q (k + y2) + q (k + y1 + y2) = q w + q y1 + q y2.
Proof.
move=> ->; rewrite !LD !(dotDl, dotDr) (dotC (L y1) (L k)) (dotC (L y2) (L k)) (dotC (L y2) (L y1)).
move: (dot (L k) (L k)) (dot (L y1) (L y1)) (dot (L y2) (L y2)) (dot (L k) (L y1)) (dot (L k) (L y2)) (dot (L y1) (L y2)).
by move=> a b c d e f; ringm R.
Qed.
Variable zs : seq point.
Hypothesis szs : shortest_set B zs.
Lemma short y p z : y \in zs -> p = y + z *+ 2 -> q y <= q p.
Proof.
case: szs => _ par n2 cls yz e; have [[v e2]|[y' [v [y'z e' le]]]] := par p.
  by case: (n2 y (v - z)) => //; rewrite mulrnBl -e2 e addrK.
rewrite -(cls y y' (z - v)) // mulrnBl addrA -e e'; by rewrite addrK.
Qed.

Lemma entry (a b : point) : a = b -> forall i, a 0 i = b 0 i. Proof. by move=> ->. Qed.
Ltac vec H1 H2 := let i := fresh "i" in apply/rowP; intro i; move: (entry H1 i) (entry H2 i); rewrite !mxE;
  move: (w 0 i) (y1 0 i) (y2 0 i) (k 0 i); intros; lia.
Lemma perm1 (a b c d x y z : F) : a + b + c + d = x + y + z -> a + b + c + d = y + z + x.
Proof. by move=> ->; ringm R. Qed.
Lemma perm2 (a b c d x y z : F) : a + b + c + d = x + y + z -> b + a + d + c = y + z + x.
Proof. move=> e; have -> : b + a + d + c = a + b + c + d by ringm R.
by rewrite e; ringm R. Qed.
Lemma perm3 (a b c d x y z : F) : a + b + c + d = x + y + z -> c + a + d + b = z + y + x.
Proof. move=> e; have -> : c + a + d + b = a + b + c + d by ringm R.
by rewrite e; ringm R. Qed.
Lemma perm4 (a b c d x y z : F) : a + b + c + d = x + y + z -> d + a + c + b = x + y + z.
Proof. move=> e; have -> : d + a + c + b = a + b + c + d by ringm R.
exact: e. Qed.
Lemma third : [/\ y1 \in zs, y2 \in zs & w \in zs] -> w = y1 + y2 + k *+ 2 -> zs =i [:: y1; y2; w] ->
  w \in [:: y1 + y2; y1 - y2; y2 - y1; - y1 - y2].
Proof.
move=> [z1 z2 zw] e all3; have f := four e.
have le0 p : q p <= 0 -> p = 0.
  by move=> h; apply/eqP; rewrite -[_ == _]negbK -(q_gt0 fB) ltNge h.
have fin (a b c d b' c' d' : F) : a + b + c + d = b' + c' + d' -> b' <= b -> c' <= c -> d' <= d -> a <= 0.
  move=> E h1 h2 h3; rewrite -(ger_addl (b + c + d)) [_ + a]addrC !addrA E; by rewrite !ler_add.
case: szs => _ par n2 cls.
have [[v ek]|[y [v [yz ek _]]]] := par k.
- have h1 : q y1 <= q (k + y1) by apply: (short (z := v)) => //; vec ek e.
  have h2 : q y2 <= q (k + y2) by apply: (short (z := v)) => //; vec ek e.
  have h3 : q w <= q (k + y1 + y2) by apply: (short (z := - v)) => //; vec ek e.
  have k0 : k = 0 by apply: le0; apply: (fin _ _ _ _ _ _ _ _ h1 h2 h3); exact: perm1 f.
  by rewrite e k0 mul0rn addr0 mem_head.
move: yz; rewrite all3 !inE => /or3P[]/eqP ey; rewrite ey in ek.
- have h1 : q y1 <= q k by apply: (short (z := v)).
  have h2 : q y2 <= q (k + y1 + y2) by apply: (short (z := v + y1)) => //; vec ek e.
  have h3 : q w <= q (k + y2) by apply: (short (z := v - k)) => //; vec ek e.
  have k0 : k + y1 = 0.
    by apply: le0; apply: (fin _ _ _ _ _ _ _ _ h1 h2 h3); exact: perm2 f.
  have -> : w = y2 - y1 by vec e k0.
  by rewrite eqxx !orbT.
- have h1 : q y2 <= q k by apply: (short (z := v)).
  have h2 : q y1 <= q (k + y1 + y2) by apply: (short (z := v + y2)) => //; vec ek e.
  have h3 : q w <= q (k + y1) by apply: (short (z := v - k)) => //; vec ek e.
  have k0 : k + y2 = 0.
    by apply: le0; apply: (fin _ _ _ _ _ _ _ _ h1 h2 h3); exact: perm3 f.
  have -> : w = y1 - y2 by vec e k0.
  by rewrite eqxx !orbT.
- have h1 : q w <= q k by apply: (short (z := v)).
  have h2 : q y1 <= q (k + y2) by apply: (short (z := v + y2 + k)) => //; vec ek e.
  have h3 : q y2 <= q (k + y1) by apply: (short (z := v + y1 + k)) => //; vec ek e.
  have k0 : k + y1 + y2 = 0.
    by apply: le0; apply: (fin _ _ _ _ _ _ _ _ h1 h2 h3); exact: perm4 f.
  have -> : w = - y1 - y2 by vec e k0.
  by rewrite eqxx !orbT.
Qed.
End Two.

Lemma vec_a (a b v : 'rV[int]_2) : a + b = v *+ 2 -> b = a + (v - a) *+ 2.
Proof.
move=> e; apply/rowP => i; move: (entry e i); rewrite !mxE.
move: (a 0 i) (b 0 i) (v 0 i) => x y z; lia.
Qed.
Lemma vec_b (a b v w : 'rV[int]_2) : a + b = w + v *+ 2 -> a = w -> b = v *+ 2.
Proof. by move=> e h; move: e; rewrite h => /addrI. Qed.
Section Span2.
Variables (F : rcfType) (B : 'M[F]_2).
Local Notation point := 'rV[int]_2.
Hypothesis fB : row_free B.
Variable rnd : F -> int.
Hypothesis rndP : forall x, `|x - (rnd x)%:~R| <= 2^-1.
Lemma span2 zs y1 y2 : shortest_set B zs -> size zs = 3%N -> y1 \in zs -> y2 \in zs -> y1 != y2 ->
  forall p : point, exists a b : int, p = y1 *~ a + y2 *~ b.
Proof.
move=> szs s3 z1 z2 ne.
have [uz par n2 cls] := szs.
have [w [v [zw ew _]]] : exists w v, [/\ w \in zs, y1 + y2 = w + v *+ 2 & true].
  have [[v e]|[w [v [zw e _]]]] := par (y1 + y2); last by exists w, v.
  by case/eqP: ne; apply/esym; apply: (cls y1 y2 (v - y1)) => //; exact: vec_a.
have all3 : zs =i [:: y1; y2; w].
  have u3 : uniq [:: y1; y2; w].
    rewrite /= !inE negb_or ne /= andbT; apply/andP; split; apply/eqP => e.
    + by apply: (n2 y2 v) => //; apply: vec_b ew e.
    + by apply: (n2 y1 v) => //; apply: vec_b e; rewrite addrC.
  have sub : {subset [:: y1; y2; w] <= zs} by move=> x; rewrite !inE => /or3P[]/eqP ->.
  have le3 : (size zs <= size [:: y1; y2; w])%N by rewrite s3.
  by have [_ h] := uniq_min_size u3 sub le3 => x; rewrite -h.
have e : w = y1 + y2 + (- v) *+ 2 by rewrite mulNrn ew addrK.
have w3 := third fB szs (And3 z1 z2 zw) e all3.
apply: (descent fB rndP szs (K := zs)).
- by left.
- by exists 0, 0; rewrite !mulr0z addr0.
- by move=> y [a [b ->]]; exists (- a), (- b); rewrite !mulrNz opprD.
- move=> y; rewrite all3 !inE => /or3P[]/eqP ->.
  + by exists 1, 0; rewrite mulr1z mulr0z addr0.
  + by exists 0, 1; rewrite mulr1z mulr0z add0r.
  + move: w3; rewrite !inE => /or4P[]/eqP ->.
    * by exists 1, 1; rewrite !mulr1z.
    * by exists 1, (-1); rewrite mulr1z mulrN1z.
    * by exists (-1), 1; rewrite mulr1z mulrN1z addrC.
    * by exists (-1), (-1); rewrite !mulrN1z.
- move=> a b _ [a1 [b1 ->]] [a2 [b2 ->]]; exists (a1 + a2), (b1 + b2); by rewrite !mulrzDl addrACA.
Qed.
Lemma generates2 (K : seq point) y1 y2 : y1 \in K -> y2 \in K -> uniq K ->
  (forall p : point, exists a b : int, p = y1 *~ a + y2 *~ b) -> generates K.
Proof.
move=> k1 k2 uK h p; have [a [b ->]] := h p.
have [f ef] := mem_gen k1 uK; have [g eg] := mem_gen k2 uK.
exists (fun z => f z * a + g z * b).
have sM c (e : point -> int) : (\sum_(z <- K) z *~ e z) *~ c = \sum_(z <- K) z *~ e z *~ c.
  by elim: (K) => [|z s IH]; rewrite ?big_nil ?mul0rz // !big_cons mulrzDr IH.
by rewrite {1}ef {1}eg !sM -big_split /=; apply: eq_bigr => z _; rewrite mulrzDl !mulrzA.
Qed.
End Span2.

(* ---- bravais_point_group ---- *)
Lemma mem_opp_row (F : rcfType) d (s : seq 'rV[F]_d) v : (v \in [seq - y | y <- s]) = (- v \in s).
Proof. by rewrite -{1}(opprK v) (mem_map (@oppr_inj _)). Qed.

Lemma check_inversion (F : rcfType) n d (nb : seq 'rV[F]_d) : check_bravais_symmetry nb [:: inversion d None : pge F d n].
Proof.
rewrite /check_bravais_symmetry /= andbT; have aN (v : 'rV[F]_d) : act (- 1%:M) v = - v.
  by rewrite /act linearN /= trmx1 mulmxN mulmx1.
apply/andP; split; apply/allP => v.
  by rewrite mem_cat mem_opp_row => h; apply/mapP; exists (- v); rewrite ?aN ?opprK // mem_cat !mem_opp_row opprK orbC.
by move=> /mapP[w]; rewrite mem_cat mem_opp_row => h ->; rewrite aN mem_cat !mem_opp_row opprK orbC.
Qed.

Section Group.
Variables (F : rcfType) (n : nat).
Variables (cs sn : F -> F) (rnd : F -> int).
Variable gsc : forall N, 'rV[F]_N -> 'rV[F]_N -> F.
Variable near : F -> F -> bool.
Variable argsort : forall N, ('rV[int]_N -> F) -> seq 'rV[int]_N -> seq 'rV[int]_N.
Variable group_3d : seq 'rV[F]_3 -> res (seq (pge F 3 n)).
Variable ord : forall d, seq (pge F d n) -> seq (pge F d n).
Hypothesis ordP : forall d (s : seq (pge F d n)) x, List.In x (ord s) <-> List.In x s.
Hypothesis rndP : forall x, `|x - (rnd x)%:~R| <= 2^-1.
Hypothesis argsort_perm : forall N key (s : seq 'rV[int]_N), perm_eq (argsort key s) s.
Hypothesis argsort_sorted : forall N key (s : seq 'rV[int]_N), sorted (fun z w => key z <= key w) (argsort key s).
Local Notation bravais := (bravais_square cs sn rnd gsc near argsort group_3d ord).

Lemma lll_same m fuel (B V : 'M[F]_m.+1) c T : lll rnd (@gsc _) near fuel B c = Some (Ok (V, T)) -> same_lattice B V.
Proof.
rewrite /lll; case: ifP => // _; case E: lll_loop => [s|] //=.
do 2?[case: ifP => // _]; case=> <- _; exact: same_trans (init_same _ _ B) (C56_lattice E).
Qed.

(* what voronoi and the check give, for every dimension *)
Lemma bravais_inv m fuel (B : 'M[F]_m.+1) c rtol tr ph generators G : bravais fuel B c rtol tr ph generators = Some (Ok G) ->
  exists P T V neighbors gens, [/\ lll rnd (@gsc _) near fuel B c = Some (Ok (P, T)), voronoi rnd (@argsort _) fuel P true rtol = Some (Ok V),
    neighbors = take (size V)./2 [seq lattice_point P z | z <- V],
    group_nd cs sn group_3d neighbors = Ok gens &
    exists2 gens', add_tr_ph tr ph None (inversion m.+1 None :: gens) = Ok gens' &
      check_bravais_symmetry neighbors gens' /\
      forall Q : pge F m.+1 n -> Prop, (forall g, List.In g gens' -> Q g) -> (forall g h, Q g -> Q h -> Q (pge_mul g h)) ->
        forall g, List.In g G -> Q g].
Proof.
rewrite /bravais_square; case el: lll => [[[P T]|e]|] //; case ev: voronoi => [[V|e]|] //.
case eg: group_nd => [gens|e] //; case ea: add_tr_ph => [gens'|e] //; case: ifPn => // /negPn ck h.
exists P, T, V, (take (size V)./2 [seq lattice_point P z | z <- V]), gens; split=> //.
exists gens' => //; split=> // Q base mul g.
move: h; case: generators => [[<-]|]; first by move=> gG; apply: base; apply: In_set_of gG.
case E: generate_group => [G'|] //= [<-] gG.
have /(_ (@ordP _) _ gG) := generate_group_sound _ E.
by elim=> [x gx|x y _ hx _ hy]; [apply: base; apply: In_set_of gx | apply: mul].
Qed.

Lemma add_tr_ph_In m tr ph (gens gens' : seq (pge F m n)) g : add_tr_ph tr ph None gens = Ok gens' -> List.In g gens' ->
  List.In g gens \/ pR g = 1%:M.
Proof.
rewrite /add_tr_ph /=; case: tr; case: ph => /= -[<-].
all: rewrite ?In_rcons; intuition; try (by right; subst g); try (by left).
Qed.

Lemma half_pm m (P : 'M[F]_m.+1) (K : seq 'rV[int]_m.+1) :
  take (size (K ++ [seq - y | y <- K]))./2 [seq lattice_point P z | z <- K ++ [seq - y | y <- K]] = [seq lattice_point P y | y <- K].
Proof. by rewrite size_cat size_map addnn doubleK map_cat take_size_cat ?size_map. Qed.

(* C59: if the vectors that voronoi returns generate the lattice, the elements that are returned map the lattice onto itself *)
Theorem C59_generating m fuel (B : 'M[F]_m.+1) c rtol tr ph generators G g : row_free B ->
  (forall P V, same_lattice B P -> voronoi rnd (@argsort _) fuel P true rtol = Some (Ok V) -> generates V) ->
  bravais fuel B c rtol tr ph generators = Some (Ok G) -> List.In g G -> preserves B (pR g).
Proof.
move=> fB gen h gG; have [P [T [V [nb [gens [/lll_same sl ev enb eg [gens' ea [ck ind]]]]]]]] := bravais_inv h.
have fP := same_free sl fB; apply: (same_preserves sl).
apply: (ind (fun g => preserves P (pR g))) gG => [{}g gg|g1 g2]; last exact: preserves_mul.
have [zs szs eV] := voronoiP fP rndP (@argsort_perm _) (@argsort_sorted _) ev.
have gV := gen _ _ sl ev; move: ck; rewrite enb eV half_pm => ck; apply: (check_preserves fP _ ck gg).
by rewrite -eV.
Qed.

(* with tolerance 0 *)
Theorem C59_exact m fuel (B : 'M[F]_m.+1) c tr ph generators G g : row_free B ->
  bravais fuel B c 0 tr ph generators = Some (Ok G) -> List.In g G -> preserves B (pR g).
Proof.
move=> fB; apply: C59_generating => // P V sl ev.
exact: (C88_generates (same_free sl fB) rndP (@argsort_perm _) (@argsort_sorted _) ev).
Qed.

(* one dimension, with any tolerance *)
Theorem C59_1d fuel (B : 'M[F]_1) c rtol tr ph generators G g : row_free B ->
  bravais fuel B c rtol tr ph generators = Some (Ok G) -> List.In g G -> preserves B (pR g).
Proof.
move=> fB h; have [P [T [V [nb [gens [_ _ _ [<-] [gens' ea [_ ind]]]]]]]] := bravais_inv h.
apply: (ind (fun g => preserves B (pR g))) => [{}g gg|g1 g2]; last exact: preserves_mul.
by have [[<-|[]]|->] := add_tr_ph_In ea gg; [exact: preservesN1 | exact: preserves1].
Qed.

(* two dimensions: at least two pairs of vectors, which generate the lattice, or no generator besides the inversion *)
Lemma two_dim fuel (P : 'M[F]_2) rtol V : row_free P -> voronoi rnd (@argsort _) fuel P true rtol = Some (Ok V) ->
  group_nd cs sn group_3d (take (size V)./2 [seq lattice_point P z | z <- V]) = Ok [::] \/ generates V.
Proof.
move=> fP ev.
have [zs [szs s3 eV]] : exists zs, [/\ shortest_set P zs, size zs = 3%N & V = discard P rtol [::] zs ++ [seq - y | y <- discard P rtol [::] zs]].
  move: ev; rewrite /voronoi; case h': (vertices _ _ _) => [[zs|]|] // [<-]; exists zs; split=> //.
    exact: vertices_shortest h'.
  by rewrite (vertices_size h') size_displacements.
have [ks _] := discard_sub P rtol [::] zs.
have uz : uniq zs by case: szs.
have uK := subseq_uniq ks uz.
move: (discard _ _ _ _) ks uK eV => K ks0 uK eV; have ks := mem_subseq ks0.
rewrite eV half_pm; have [le1|lt1] := leqP (size K) 1%N.
  by left; case: (K) le1 => [|k [|k' K']].
right.
have [y1 [y2 [k1 k2 ne]]] : exists y1 y2, [/\ y1 \in K, y2 \in K & y1 != y2].
  move: uK lt1; case: (K) => [|k [|k' K']] //= /andP[] ; rewrite inE negb_or => /andP[ne _] _ _.
  by exists k, k'; rewrite !inE !eqxx ?orbT.
have uV := uniq_sub_pm (uniq_pm fP szs) ks0.
apply: (generates2 (y1 := y1) (y2 := y2)) => //; rewrite ?mem_cat ?k1 ?k2 //.
exact: (span2 fP rndP szs s3 (ks _ k1) (ks _ k2) ne).
Qed.

(* two dimensions, with any tolerance *)
Theorem C59_2d fuel (B : 'M[F]_2) c rtol tr ph generators G g : row_free B ->
  bravais fuel B c rtol tr ph generators = Some (Ok G) -> List.In g G -> preserves B (pR g).
Proof.
move=> fB h gG; have [P [T [V [nb [gens [/lll_same sl ev enb eg [gens' ea [ck ind]]]]]]]] := bravais_inv h.
have fP := same_free sl fB; apply: (same_preserves sl).
apply: (ind (fun g => preserves P (pR g))) gG => [{}g gg|g1 g2]; last exact: preserves_mul.
have [e0|gV] := two_dim fP ev.
  by move: ea eg; rewrite enb e0 => ea [e1]; rewrite -e1 in ea; have [[<-|[]]|->] := add_tr_ph_In ea gg; [exact: preservesN1 | exact: preserves1].
have [zs szs eV] := voronoiP fP rndP (@argsort_perm _) (@argsort_sorted _) ev.
move: ck; rewrite enb eV half_pm => ck; apply: (check_preserves fP _ ck gg).
by rewrite -eV.
Qed.

(* periods with more components than there are periods: proj has orthonormal rows that span the same space *)
Variable proj : forall m d, 'M[F]_(m, d) -> 'M[F]_(m, d).
Theorem C59_rectangular m d fuel (B : 'M[F]_(m.+1, d)) c rtol tr ph generators G g : row_free B ->
  B *m (proj B)^T *m proj B = B ->
  (forall fuel (B : 'M[F]_m.+1) G g, row_free B -> bravais fuel B c rtol tr ph generators = Some (Ok G) -> List.In g G -> preserves B (pR g)) ->
  bravais_rectangular cs sn rnd gsc near argsort group_3d ord proj fuel B c rtol tr ph generators = Some (Ok G) -> List.In g G ->
  forall z : 'rV[int]_m.+1, exists z' : 'rV[int]_m.+1,
    act (pR g) (lattice_point B z *m (proj B)^T) *m proj B = lattice_point B z'.
Proof.
move=> fB pB sq h gG z.
have fP : row_free (B *m (proj B)^T).
  move: fB; rewrite -!row_leq_rank => le; apply: leq_trans le _; rewrite -{1}pB; exact: mxrankM_maxl.
have /(_ (lattice_point (B *m (proj B)^T) z)) [] := sq _ _ _ _ fP h gG.
move=> /(_ (ex_intro _ z erefl)) [z' e] _; exists z'.
by move: e; rewrite /lattice_point !mulmxA => ->; rewrite -!mulmxA (mulmxA B) pB.
Qed.

(* one dimension: it does return *)
Theorem C59_returns (B : 'M[F]_1) c rtol : row_free B -> (forall x, near x x) -> (forall N, @gsc N = @gs_coefficient F N) ->
  exists fuel G, bravais fuel B c rtol false false true = Some (Ok G) /\ exists2 g, List.In g G & pR g = - 1%:M.
Proof.
move=> fB near_refl eg.
have [P [T el]] : exists P T, forall fuel, lll rnd (@gsc _) near fuel B c = Some (Ok (P, T)).
  have lE fuel : lll rnd (@gsc 1) near fuel B c = lll rnd (@gsc 1) near 0 B c by case: fuel.
  case E: (lll rnd (@gsc 1) near 0 B c) => [r|]; last by move: E; rewrite /lll /=; case: ifP => // _; case: ifP.
  have E' := E; rewrite eg in E'; have [V [T [er _ _ _ _]]] := C56_lll rndP near_refl fB E'.
  by exists V, T => fuel; rewrite lE E er.
have fP := same_free (lll_same (el 0%N)) fB.
have [fuel [V ev]] := C58_terminates fP rndP (@argsort_perm _) (@argsort_sorted _) true rtol.
exists fuel, [:: inversion 1 None]; split; last by exists (inversion 1 None) => //; left.
have atp : add_tr_ph false false None [:: inversion 1 None] = Ok [:: inversion 1 None : pge F 1 n] by [].
have gE (nb : seq 'rV[F]_1) : group_nd cs sn group_3d nb = Ok [::] by [].
by rewrite /bravais_square el ev gE; rewrite atp check_inversion.
Qed.
End Group.

(* C89: a rectangular lattice that is long and narrow has the mirrors of a rectangle, they are not found *)
Section Narrow.
Variables (F : rcfType) (n : nat).
Variables (cs sn : F -> F) (rnd : F -> int).
Variable near : F -> F -> bool.
Variable argsort : forall N, ('rV[int]_N -> F) -> seq 'rV[int]_N -> seq 'rV[int]_N.
Variable group_3d : seq 'rV[F]_3 -> res (seq (pge F 3 n)).
Variable ord : forall d, seq (pge F d n) -> seq (pge F d n).
Hypothesis ordP : forall d (s : seq (pge F d n)) x, List.In x (ord s) <-> List.In x s.
Hypothesis rndP : forall x, `|x - (rnd x)%:~R| <= 2^-1.
Hypothesis near_refl : forall x, near x x.
Hypothesis argsort_perm : forall N key (s : seq 'rV[int]_N), perm_eq (argsort key s) s.
Hypothesis argsort_sorted : forall N key (s : seq 'rV[int]_N), sorted (fun z w => key z <= key w) (argsort key s).
Local Notation gsc := (fun N => @gs_coefficient F N).
Local Notation bravais := (bravais_square cs sn rnd gsc near argsort group_3d ord).

Lemma thin_lll e fuel c : e != 0 -> e ^+ 2 < c -> exists T, lll rnd (@gs_coefficient F 2) near fuel.+1 (thin e) c = Some (Ok (thin e, T)).
Proof.
move=> e0 ec; have fr := thin_free e0.
have b0 : below (0 : 'I_2) = [::] by rewrite /below enum_ord2.
have b1 : below (1 : 'I_2) = [:: 0] by rewrite /below enum_ord2.
have o2 (i : 'I_2) : i = 0 \/ i = 1 by case: i => [[|[|]]] // p; [left|right]; apply: val_inj.
have co : gs_coefficient (row 1 (thin e)) (row 0 (thin e)) = 0.
  by rewrite /gs_coefficient /dot !big_ord_recl !big_ord0 !mxE /= !mulr0 !mul0r !addr0 mul0r.
have [ev es] : lvecs (lll_init rnd (@gs_coefficient F 2) (thin e)) = thin e /\ lstar (lll_init rnd (@gs_coefficient F 2) (thin e)) = thin e.
  rewrite /lll_init enum_ord2 /= /init_row b0 b1 /= /ll_reduce b0 b1 /= /project_out /= co /reduce_with /=.
  have -> : rnd (set_entry (1%:M : 'M[F]_2) 1 0 0 1 0) = 0 by rewrite mxE /= (rnd_int rndP 0).
  by split; apply/matrixP => i j; rewrite !mxE; case: (o2 i) => ->; case: (o2 j) => ->;
    rewrite ?mxE /= ?mxE /= ?mul0r ?subr0.
have E : lll_loop rnd (@gs_coefficient F 2) fuel.+1 c 0 (lll_init rnd (@gs_coefficient F 2) (thin e)) = Some (lll_init rnd (@gs_coefficient F 2) (thin e)).
  rewrite /= es.
  have -> : dot (row (inord 0) (thin e)) (row (inord 0) (thin e)) = e ^+ 2.
    by rewrite /dot !big_ord_recl big_ord0 !mxE -!(inj_eq val_inj) /= inordK //= !mulr0 !addr0 expr2.
  have -> : dot (row (inord 1) (thin e)) (row (inord 1) (thin e)) = 1.
    by rewrite /dot !big_ord_recl big_ord0 !mxE -!(inj_eq val_inj) /= inordK //= mulr0 mulr1 add0r addr0.
  by rewrite mulr1 ec; case: (fuel).
have [r Er] : exists r, lll rnd (@gs_coefficient F 2) near fuel.+1 (thin e) c = Some r.
  by rewrite /lll E /=; case: ifP => _; [|case: ifP => _]; eexists.
have [V [T [eR uT eV sl red]]] := C56_lll rndP near_refl fr Er.
have V1 : V = thin e.
  by move: Er; rewrite eR /lll E /= ev; case: ifP => // _; case: ifP => // _ [<-].
by exists T; rewrite Er eR V1.
Qed.

Definition mirror_y : 'M[F]_2 := \matrix_(i, j) if i == j then if i == 0 then 1 else -1 else 0.
Theorem C89_complete_refuted rtol c : 0 < rtol -> rtol < 4%:R^-1 -> 1 < c -> exists fuel,
  [/\ exists G, bravais fuel (thin rtol) c rtol false false true = Some (Ok G),
      mirror_y *m mirror_y^T = 1%:M, preserves (thin rtol) mirror_y &
      forall tr ph generators G g, bravais fuel (thin rtol) c rtol tr ph generators = Some (Ok G) -> List.In g G -> pR g <> mirror_y].
Proof.
move=> r0 r4 c1; have r1 : rtol < 1 by apply: lt_trans r4 _; rewrite invf_lt1 ?ltr0n ?ltr1n.
have e1 : rtol ^+ 2 < c by apply: lt_trans c1; rewrite exprn_ilt1 // ltW.
have e0 : rtol != 0 by rewrite gt_eqF.
have fB := thin_free e0.
have [[|fuel] [V [ev ng _]]] := C88_tolerance_refuted rndP (@argsort_perm _) (@argsort_sorted _) r0 r4.
  by move: ev; rewrite /voronoi /displacements /vertices /= /vertex /cvp; case: ifP => _ /=.
have [T el] := thin_lll fuel e0 e1.
have o2 (i : 'I_2) : i = 0 \/ i = 1 by case: i => [[|[|]]] // p; [left|right]; apply: val_inj.
exists fuel.+1; split.
- exists [:: inversion 2 None].
  rewrite /bravais_square el ev; have [->|/ng []] := two_dim cs sn group_3d rndP argsort_perm argsort_sorted fB ev.
  have atp : add_tr_ph false false None [:: inversion 2 None] = Ok [:: inversion 2 None : pge F 2 n] by [].
  by rewrite atp check_inversion.
- by apply/matrixP => i j; rewrite !mxE !big_ord_recl big_ord0 !mxE; case: (o2 i) => ->; case: (o2 j) => ->;
    rewrite /= ?mulr0 ?mul0r ?mulr1 ?mulrNN ?mulr1 ?addr0 ?add0r.
- have inv (v : 'rV[F]_2) : act mirror_y (act mirror_y v) = v.
    apply/rowP => i; rewrite !mxE !big_ord_recl big_ord0 !mxE !big_ord_recl !big_ord0 !mxE; case: (o2 i) => -> /=.
      by rewrite !mulr0 !mulr1 !addr0.
    by rewrite !mulr0 !add0r !addr0 !mulrN1 opprK; congr (v 0 _); apply: val_inj.
  have one v : in_lattice (thin rtol) v -> in_lattice (thin rtol) (act mirror_y v).
    move=> [z ->]; exists (\row_i if i == 0 then z 0 0 else - z 0 1).
    apply/rowP => i; rewrite !thin_point !mxE !big_ord_recl big_ord0 !mxE; case: (o2 i) => -> /=.
      by rewrite mulr0 mulr1 !addr0.
    by rewrite mulr0 add0r addr0 mulrN1 rmorphN.
  by move=> v; split=> [|/one]; [exact: one | rewrite inv].
move=> tr ph generators G g h gG.
have : pR g = 1%:M \/ pR g = - 1%:M.
  have [P [T' [V' [nb [gens [el' ev' enb eg [gens' ea [_ ind]]]]]]]] := bravais_inv ordP h.
  move: el' ev' enb eg; rewrite el => -[<- _]; rewrite ev => -[<-] ->.
  have [->|/ng []] := two_dim cs sn group_3d rndP argsort_perm argsort_sorted fB ev; case=> eg.
  rewrite -eg in ea; apply: (ind (fun g => pR g = 1%:M \/ pR g = - 1%:M)) gG.
    by move=> g' gg; have [[<-|[]]|->] := add_tr_ph_In ea gg; [right|left].
  by move=> g1 g2 /= [->|->] [->|->]; rewrite ?mulmxN ?mulNmx ?mul1mx ?opprK; [left|right|right|left].
by move=> [->|->] /matrixP h2; [move: (h2 1 1) | move: (h2 0 0)]; rewrite !mxE /= => /eqP; [rewrite -addr_eq0 -mulr2n | rewrite eq_sym -addr_eq0 -mulr2n]; rewrite pnatr_eq0.
Qed.
End Narrow.

Print Assumptions C59_generating.
Print Assumptions C59_exact.
Print Assumptions C59_1d.
Print Assumptions C59_2d.
Print Assumptions C59_rectangular.
Print Assumptions C59_returns.
Print Assumptions C89_complete_refuted.
