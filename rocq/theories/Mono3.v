(* The base-centred monoclinic branch of bravais_group_3d: with two pairs of equivalent vectors the symmetries are
   generated by the two rotations that are found.  Otherwise the lattice would be face-centred orthorhombic, and the sets
   of equivalent vectors would be different. *)
From mathcomp Require Import all_ssreflect all_algebra zify.
From mathcomp Require Import complex.
From Verif Require Import Prelude PySet PGE LinSpan NullSpec Complement RingTac.
From Verif Require Import Continuum PropContinuum LLL PropLLL CVP PropCVP PropVoronoi Bravais PropBravais PropBravais2 Bravais3 Space3 Branch3 Rhomb3.

Set Implicit Arguments.
Unset Strict Implicit.
Unset Printing Implicit Defensive.
Import Order.TTheory GRing.Theory Num.Theory.
Local Open Scope ring_scope.

Section Mono.
Variables (F : rcfType) (rnd : F -> int).
Let Rg := [comRingType of F].
Add Ring RrM3 : (R_ring Rg).
Implicit Types (R A : 'M[F]_3) (a b u v w x y z : 'rV[F]_3) (S : seq 'rV[F]_3).
Local Notation q v := (dot v v).
Local Notation cr := (@npcross F).
Hypothesis rndP : forall t : F, `|t - (rnd t)%:~R| <= 2^-1.
Variable nb : seq 'rV[F]_3.
Hypothesis un : uniq (pms nb).
Hypothesis npar : forall u v, u \in nb -> v \in nb -> u != v -> cr u v != 0.
Hypothesis ncop : forall (D : seq 'rV[F]_3) x, uniq D -> {subset D <= nb} -> (3 < size D)%N -> (forall v, v \in D -> dot x v = 0) -> x = 0.
Local Notation sym := (Branch3.sym nb).
(* the lattice *)
Variable inL : 'rV[F]_3 -> Prop.
Hypothesis LD : forall u v, inL u -> inL v -> inL (u + v).
Hypothesis LN : forall u, inL u -> inL (- u).
Hypothesis nbL : forall v, v \in nb -> inL v.
Hypothesis nb2 : forall v w, v \in nb -> inL w -> v <> w *+ 2.
Hypothesis nbmin : forall v w, v \in nb -> inL w -> q (v + w *+ 2) <= q v -> pm (v + w *+ 2) v.
Hypothesis nbin : forall v, inL v -> (forall w, inL w -> v <> w *+ 2) ->
  (forall w, inL w -> q (v + w *+ 2) <= q v -> pm (v + w *+ 2) v) -> v \in pms nb.
Hypothesis symL : forall R w, sym R -> inL w -> inL (act R w).
Hypothesis Lsym : forall R, orthogonal R -> (forall w, inL w -> inL (act R w)) -> (forall w, inL (act R w) -> inL w) -> sym R.

Lemma LZ u (i : int) : inL u -> inL (i%:~R *: u).
Proof.
move=> h; have Ln (k : nat) : inL (k%:R *: u).
  elim: k => [|k IH]; first by rewrite scale0r -(subrr u); apply: LD => //; exact: LN.
  by rewrite mulrS scalerDl scale1r; exact: LD.
by case: i => k; [exact: Ln | rewrite NegzE mulrNz scaleNr; apply: LN; exact: Ln].
Qed.
Lemma pmsL v : v \in pms nb -> inL v.
Proof. by rewrite mem_pms => /orP[/nbL //|/nbL/LN]; rewrite opprK. Qed.
Lemma pmsmin v w : v \in pms nb -> inL w -> q (v + w *+ 2) <= q v -> pm (v + w *+ 2) v.
Proof.
rewrite mem_pms => /orP[vn|vn] wL; first exact: nbmin.
have e : - v + (- w) *+ 2 = - (v + w *+ 2) by rewrite mulNrn opprD.
have := nbmin vn (LN wL); rewrite e !dotNl !dotNr !opprK => h /h [/oppr_inj ->|/oppr_inj ->]; by [left | right].
Qed.
Lemma pms_sym R v : sym R -> v \in pms nb -> act R v \in pms nb.
Proof.
move=> [_ p]; rewrite mem_pms => /orP[/p //|/p]; by rewrite actN pmsN.
Qed.

(* ---- a face-centred orthorhombic lattice ---- *)
Definition ortho x y z := [/\ x != 0, y != 0 & z != 0] /\ [/\ dot x y = 0, dot x z = 0 & dot y z = 0].
Definition comb (i j k : int) x y z : 'rV[F]_3 := i%:~R *: x + j%:~R *: y + k%:~R *: z.
Definition face x y z := forall w, inL w <-> exists i j k, (2 %| i + j + k)%Z /\ w = comb i j k x y z.

Lemma dec x y z w : ortho x y z -> w = (dot w x / q x) *: x + (dot w y / q y) *: y + (dot w z / q z) *: z.
Proof.
move=> [[x0 y0 z0] [xy xz yz]]; apply/eqP; rewrite -subr_eq0; apply/eqP.
have [qx qy qz] : [/\ q x != 0, q y != 0 & q z != 0] by rewrite !dot_eq0.
set s := _ + _ + _.
have [hx hy hz] : [/\ dot (w - s) x = 0, dot (w - s) y = 0 & dot (w - s) z = 0].
  by rewrite /s; split; rewrite !dotDl dotNl !dotDl !dotZl ?xy ?xz ?yz ?(dotC y x) ?(dotC z x) ?(dotC z y) ?xy ?xz ?yz ?mulr0 ?addr0 ?add0r divfK // subrr.
have cxy : cr x y != 0.
  by rewrite -dot_eq0 lagrange xy expr0n subr0 mulf_neq0.
apply: (perp0 cxy) => //.
have cz : cr (cr x y) z = 0 by rewrite crC; rewrite (perp_par _ _) ?oppr0 // dotC.
by rewrite (parE cz z0) dotZr hz mulr0.
Qed.
Lemma q_comb (a b c : F) x y z : ortho x y z -> q (a *: x + b *: y + c *: z) = a ^+ 2 * q x + b ^+ 2 * q y + c ^+ 2 * q z.
Proof.
move=> [_ [xy xz yz]]; rewrite !dotDl !dotDr !dotZl !dotZr ?(dotC y x) ?(dotC z x) ?(dotC z y) xy xz yz !mulr0 !addr0 !add0r.
by rewrite !expr2 !mulrA.
Qed.
Lemma comb_inj (a b c a' b' c' : F) x y z : ortho x y z -> a *: x + b *: y + c *: z = a' *: x + b' *: y + c' *: z -> [/\ a = a', b = b' & c = c'].
Proof.
move=> o e; have := q_comb (a - a') (b - b') (c - c') o.
have -> : (a - a') *: x + (b - b') *: y + (c - c') *: z = 0.
  by rewrite !scalerBl [X in X + _]addrACA -opprD addrACA -opprD e subrr.
case: o => [[x0 y0 z0] _]; rewrite dot0l.
have [qx qy qz] : [/\ 0 < q x, 0 < q y & 0 < q z] by rewrite !q_gt0.
have p (t s : F) : 0 < t -> 0 <= s ^+ 2 * t by move=> t0; rewrite mulr_ge0 ?sqr_ge0 // ltW.
move/esym/eqP; rewrite paddr_eq0 ?addr_ge0 ?p // paddr_eq0 ?p // !mulf_eq0 !orbb (gt_eqF qx) (gt_eqF qy) (gt_eqF qz) !orbF !subr_eq0.
by case/andP=> /andP[/eqP -> /eqP ->] /eqP ->.
Qed.

(* the lattice is face-centred when it contains these vectors *)
Lemma half_dec x y z (a b c : F) : ortho x y z ->
  [/\ act (half x) (a *: x + b *: y + c *: z) = a *: x + (- b) *: y + (- c) *: z,
      act (half y) (a *: x + b *: y + c *: z) = (- a) *: x + b *: y + (- c) *: z &
      act (half z) (a *: x + b *: y + c *: z) = (- a) *: x + (- b) *: y + c *: z].
Proof.
move=> [[x0 y0 z0] [xy xz yz]]; split; rewrite !actD !actZ half_axis.
- by rewrite !(half_perp x0) // !scalerN !scaleNr.
- by rewrite !(half_perp y0) // 1?dotC // !scalerN !scaleNr.
- by rewrite !(half_perp z0) // 1?dotC // !scalerN !scaleNr.
Qed.
Lemma key_coef a c (s : F) : a != 0 -> c != 0 -> dot a c = 0 -> a + c \in pms nb -> 0 <= s -> s <= 2^-1 -> inL ((s *+ 2) *: a) -> s = 0.
Proof.
move=> a0 c0 ac ap s0 s1 /LN sL; have qa := q_gt0 a0; have qc := q_gt0 c0; have := pmsmin ap sL.
have -> : a + c + (- ((s *+ 2) *: a)) *+ 2 = (1 - s *+ 4) *: a + c.
  by rewrite addrAC mulNrn -!scalerMnl -mulrnA scalerBl scale1r -scalerMnl.
have s2 : s *+ 4 <= 2 by rewrite (_ : 2 = 2^-1 *+ 4) ?ler_muln2r //; rewrite -[4%N]/(2 * 2)%N mulrnA [_^-1 *+ 2]mulr2n halves.
have s3 : 0 <= s *+ 4 by rewrite mulrn_wge0.
have le : (1 - s *+ 4) ^+ 2 <= 1.
  rewrite -subr_ge0 -[1 in X in X - _](expr1n _ 2) subr_sqr mulr_ge0 //; first by rewrite opprB addrCA subrr addr0.
  by rewrite addrA subr_ge0 -[1 + 1]/(2%:R).
rewrite !dotDl !dotDr !dotZl !dotZr (dotC c) ac !mulr0 !addr0 !add0r mulrA -expr2 ler_add2r.
rewrite -[X in _ <= X]mul1r ler_pmul2r // => /(_ le) [].
  move/addIr/eqP; rewrite -subr_eq0 scalerBl scale1r addrAC subrr add0r oppr_eq0 scaler_eq0 (negbTE a0) orbF mulrn_eq0 /= => /eqP //.
move/(congr1 (fun t : 'rV[F]_3 => dot t c)); rewrite dotDl dotZl ac mulr0 add0r dotNl dotDl ac add0r => /eqP.
by rewrite -addr_eq0 -mulr2n mulrn_eq0 /= gt_eqF.
Qed.
Lemma not_in a c : a != 0 -> c != 0 -> dot a c = 0 -> a + c \in pms nb -> ~ inL a.
Proof.
move=> a0 c0 ac ap aL; have /eqP : (2^-1 : F) = 0; last by rewrite invr_eq0 pnatr_eq0.
apply: (key_coef a0 c0 ac ap); rewrite ?lexx ?invr_ge0 ?ler0n //.
by rewrite mulr2n halves scale1r.
Qed.
Lemma int_coef a c w : a != 0 -> c != 0 -> dot a c = 0 -> a + c \in pms nb ->
  (forall w, inL w -> inL (((dot w a / q a) *+ 2) *: a)) -> inL w -> exists i : int, dot w a / q a = i%:~R.
Proof.
move=> a0 c0 ac ap twice wL; have qa := q_gt0 a0; have qc := q_gt0 c0.
set t := dot w a / q a; exists (rnd t); apply/eqP; rewrite -subr_eq0; set t' := t - _.
have w'L : inL (w + (- rnd t)%:~R *: (a + c)) by apply: LD => //; apply: LZ; exact: pmsL.
have e : dot (w + (- rnd t)%:~R *: (a + c)) a / q a = t'.
  by rewrite dotDl dotZl dotDl (dotC c) ac addr0 mulrDl mulfK ?gt_eqF // mulrNz.
have := twice _ w'L; rewrite e => tL.
have key := key_coef a0 c0 ac ap.
have := rndP t; rewrite -/t' => bd; apply/eqP; case: (lerP 0 t') bd => t0; first by rewrite ger0_norm // => bd; exact: key.
rewrite ltr0_norm // => bd; apply: oppr_inj; rewrite oppr0; apply: key => //; first by rewrite oppr_ge0 ltW.
by rewrite mulNrn scaleNr; exact: LN.
Qed.

Lemma odd_half (i j k : int) : ~~ (2 %| i + j + k)%Z -> exists m, i - j - k = 2 * m + 1.
Proof. clear; move=> h; exists ((i - j - k) %/ 2)%Z; lia. Qed.
Lemma odd_back (i m : int) : i = 2 * m + 1 -> i + - m * 2 = 1.
Proof. clear; lia. Qed.
Lemma even_half (i j k : int) : (2 %| i + j + k)%Z -> i - j - k = ((i - j - k) %/ 2)%Z * 2.
Proof. clear; lia. Qed.
Lemma face_of x y z : ortho x y z -> x + y \in pms nb -> x - y \in pms nb -> x + z \in pms nb -> sym (half y) -> sym (half z) -> face x y z.
Proof.
move=> o pxy mxy pxz sy sz; have [[x0 y0 z0] [xy xz yz]] := o.
have d w : exists a b c : F, [/\ a = dot w x / q x, b = dot w y / q y, c = dot w z / q z & w = a *: x + b *: y + c *: z].
  by exists (dot w x / q x), (dot w y / q y), (dot w z / q z); split=> //; exact: dec.
have tx w : inL w -> inL (((dot w x / q x) *+ 2) *: x).
  move=> wL; have := LD wL (symL sy (symL sz wL)); have [a [b [c [<- _ _ ->]]]] := d w.
  have [_ _ ->] := half_dec a b c o; have [_ -> _] := half_dec (- a) (- b) c o.
  by rewrite addrACA [X in X + _]addrACA -!scalerDl opprK !subrr !scale0r !addr0 -mulr2n.
have ty w : inL w -> inL (((dot w y / q y) *+ 2) *: y).
  move=> wL; have := LD wL (symL sy wL); have [a [b [c [_ <- _ ->]]]] := d w.
  have [_ -> _] := half_dec a b c o.
  by rewrite addrACA [X in X + _]addrACA -!scalerDl !subrr !scale0r !addr0 add0r -mulr2n.
have tz w : inL w -> inL (((dot w z / q z) *+ 2) *: z).
  move=> wL; have := LD wL (symL sz wL); have [a [b [c [_ _ <- ->]]]] := d w.
  have [_ _ ->] := half_dec a b c o.
  by rewrite addrACA [X in X + _]addrACA -!scalerDl !subrr !scale0r !add0r -mulr2n.
have xL := not_in x0 y0 xy pxy.
have two : inL (2%:~R *: x).
  by have := LD (pmsL pxy) (pmsL mxy); rewrite addrACA subrr addr0 -mulr2n -scaler_nat.
have red (i j k : int) : comb i j k x y z = (i - j - k)%:~R *: x + j%:~R *: (x + y) + k%:~R *: (x + z).
  rewrite /comb !rmorphB /=; apply/rowP => t; rewrite !mxE.
  move: (x 0 t) (y 0 t) (z 0 t) (i%:~R : F) (j%:~R : F) (k%:~R : F) => ? ? ? ? ? ?.
  by apply/eqP; rewrite -subr_eq0; apply/eqP; ringm Rg.
move=> w; split.
- move=> wL; have [a [b [c [ea eb ec ew]]]] := d w.
  have [i hi] := int_coef x0 y0 xy pxy tx wL.
  have [j hj] : exists i : int, dot w y / q y = i%:~R.
    by apply: (int_coef y0 x0 _ _ ty wL); rewrite 1?dotC // addrC.
  have [k hk] : exists i : int, dot w z / q z = i%:~R.
    by apply: (int_coef z0 x0 _ _ tz wL); rewrite 1?dotC // addrC.
  rewrite hi in ea; rewrite hj in eb; rewrite hk in ec; subst a b c.
  exists i, j, k; split=> //; case: (boolP (2 %| i + j + k)%Z) => // nd; case: xL.
  have [m em] := odd_half nd.
  have : inL ((i - j - k)%:~R *: x + (- m)%:~R *: (2%:~R *: x)).
    apply: LD; last exact: LZ.
    move: wL; rewrite ew -/(comb i j k x y z) red => h.
    have := LD (LD h (LZ (- k) (pmsL pxz))) (LZ (- j) (pmsL pxy)).
    by rewrite !mulrNz !scaleNr addrK addrK.
  by rewrite scalerA -scalerDl -intrM -intrD (odd_back em) scale1r.
- move=> [i [j [k [ev ->]]]]; rewrite red; apply: LD; last exact: LZ (pmsL pxz).
  apply: LD; last exact: LZ (pmsL pxy).
  rewrite (even_half ev).
  by rewrite intrM -scalerA; exact: LZ.
Qed.

Lemma orthoC x y z : ortho x y z -> ortho y x z.
Proof. by move=> [[x0 y0 z0] [xy xz yz]]; split; split=> //; rewrite dotC. Qed.
Lemma orthoR x y z : ortho x y z -> ortho x z y.
Proof. by move=> [[x0 y0 z0] [xy xz yz]]; split; split=> //; rewrite dotC. Qed.
Lemma faceC x y z : face x y z -> face y x z.
Proof.
move=> f w; rewrite f; split=> -[i [j [k [ev ->]]]]; exists j, i, k; split; try lia; by rewrite /comb [X in X + _]addrC.
Qed.
Lemma faceR x y z : face x y z -> face x z y.
Proof.
move=> f w; rewrite f; split=> -[i [j [k [ev ->]]]]; exists i, k, j; split; try lia; by rewrite /comb addrAC.
Qed.
Lemma zero3 (i j k : int) (a b c : F) : 0 <= i -> 0 <= j -> 0 <= k -> 0 < a -> 0 < b -> 0 < c ->
  i%:~R * a + j%:~R * b + k%:~R * c <= 0 -> [/\ i = 0, j = 0 & k = 0].
Proof.
move=> hi hj hk a0 b0 c0.
have p (m : int) (t : F) : 0 <= m -> 0 < t -> 0 <= m%:~R * t by move=> m0 t0; rewrite mulr_ge0 ?ler0z // ltW.
rewrite le_eqVlt ltNge ?addr_ge0 ?p //= orbF paddr_eq0 ?addr_ge0 ?p // paddr_eq0 ?p // !mulf_eq0 !intr_eq0.
by rewrite (gt_eqF a0) (gt_eqF b0) (gt_eqF c0) !orbF => /andP[/andP[/eqP -> /eqP ->] /eqP ->].
Qed.
Lemma comb2 (i j k l m n : int) x y z : comb i j k x y z + comb l m n x y z *+ 2 = comb (i + 2 * l) (j + 2 * m) (k + 2 * n) x y z.
Proof.
rewrite /comb !intrD !intrM mulr2n; apply/rowP => t; rewrite !mxE.
move: (x 0 t) (y 0 t) (z 0 t) (i%:~R : F) (j%:~R : F) (k%:~R : F) (l%:~R : F) (m%:~R : F) (n%:~R : F) => ? ? ? ? ? ? ? ? ?.
by apply/eqP; rewrite -subr_eq0; apply/eqP; rewrite -[2%:~R]/(1 + 1 : F); ringm Rg.
Qed.
Lemma q_combz (i j k : int) x y z : ortho x y z -> q (comb i j k x y z) = (i ^+ 2)%:~R * q x + (j ^+ 2)%:~R * q y + (k ^+ 2)%:~R * q z.
Proof. by move=> o; rewrite /comb q_comb // -!rmorphX. Qed.
Lemma combz_inj (i j k l m n : int) x y z : ortho x y z -> comb i j k x y z = comb l m n x y z -> [/\ i = l, j = m & k = n].
Proof. by move=> o /(comb_inj o) [/eqP+ /eqP+ /eqP]; rewrite !eqr_int => /eqP -> /eqP -> /eqP ->. Qed.
Lemma combN (i j k : int) x y z : - comb i j k x y z = comb (- i) (- j) (- k) x y z.
Proof. by rewrite /comb !mulrNz !scaleNr !opprD. Qed.
Lemma sq_ge1 (i : int) : i != 0 -> 1 <= i ^+ 2.
Proof. by rewrite expr2; case: (ltrgtP i 0) => // h _; nia. Qed.
Lemma sq_ge0 (i : int) : 0 <= i ^+ 2. Proof. exact: sqr_ge0. Qed.
Lemma sq_eq0 (k : int) : (0 + 2 * k) ^+ 2 = 0 -> k = 0.
Proof. clear; rewrite expr2 => h; nia. Qed.
Lemma odd_sq0 (i : int) : (1 + 2 * i) ^+ 2 - 1 = 0 -> i = 0 \/ i = -1.
Proof. clear; rewrite expr2 => h; nia. Qed.
Lemma long_sq0 (i : int) : (2 + 2 * i) ^+ 2 + (0 + 2 * 0) ^+ 2 + (0 + 2 * 0) ^+ 2 - 4 = 0 -> i = 0 \/ i = -2.
Proof. clear; rewrite !expr2 => h; nia. Qed.
Lemma odd_sq (i : int) : 0 <= (1 + 2 * i) ^+ 2 - 1.
Proof. rewrite subr_ge0; apply: sq_ge1; lia. Qed.
Lemma long_sq (i j k : int) : (2 %| i + j + k)%Z -> 0 <= (2 + 2 * i) ^+ 2 + (0 + 2 * j) ^+ 2 + (0 + 2 * k) ^+ 2 - 4.
Proof.
move=> ev; have [i1|i1] := eqVneq (1 + i) 0; last by have := sq_ge1 i1; rewrite !expr2; nia.
have [j1|j1] := eqVneq j 0; last by have := sq_ge1 j1; rewrite !expr2; nia.
have [k1|k1] := eqVneq k 0; last by have := sq_ge1 k1; rewrite !expr2; nia.
lia.
Qed.
Lemma face_side x y z : ortho x y z -> face x y z -> x + y \in pms nb.
Proof.
move=> o f; have [[x0 y0 z0] _] := o.
have e : x + y = comb 1 1 0 x y z by rewrite /comb !scale1r scale0r addr0.
rewrite e; apply: nbin.
- by apply/f; exists 1, 1, 0.
- move=> w /f [i [j [k [ev ->]]]] h; have := comb2 0 0 0 i j k x y z.
  by rewrite -h {1}/comb !scale0r !add0r => /(combz_inj o) [h1 _ _]; lia.
- move=> w /f [i [j [k [ev ->]]]]; rewrite comb2 !q_combz // => le.
  have [h1 h2 h3] : [/\ (1 + 2 * i) ^+ 2 - 1 = 0, (1 + 2 * j) ^+ 2 - 1 = 0 & (0 + 2 * k) ^+ 2 = 0].
    apply: (zero3 _ _ _ (q_gt0 x0) (q_gt0 y0) (q_gt0 z0)); try exact: odd_sq; try exact: sq_ge0.
    rewrite -subr_le0 in le; apply: le_trans le; rewrite le_eqVlt; apply/orP; left; rewrite !rmorphB /= !expr1n expr0n /= mul0r.
    move: (((1 + 2 * i) ^+ 2)%:~R : F) (((1 + 2 * j) ^+ 2)%:~R : F) (((0 + 2 * k) ^+ 2)%:~R : F) (q x) (q y) (q z) => ? ? ? ? ? ?.
    by rewrite -subr_eq0; apply/eqP; ringm Rg.
  have k0 := sq_eq0 h3; subst k.
  case: (odd_sq0 h1) (odd_sq0 h2) => ei [] ej; subst i j; by [left | right; rewrite combN | move: ev].
Qed.
Lemma face_long x y z : ortho x y z -> face x y z -> q x < q y -> q x < q z -> x *+ 2 \in pms nb.
Proof.
move=> o f ly lz; have [[x0 y0 z0] _] := o.
have e : x *+ 2 = comb 2 0 0 x y z by rewrite /comb !scale0r !addr0 -scaler_nat.
rewrite e; apply: nbin.
- by apply/f; exists 2, 0, 0.
- move=> w /f [i [j [k [ev ->]]]] h; have := comb2 0 0 0 i j k x y z.
  by rewrite -h {1}/comb !scale0r !add0r => /(combz_inj o) [h1 h2 h3]; lia.
- move=> w /f [i [j [k [ev ->]]]]; rewrite comb2 !q_combz // => le.
  have [h1 h2 h3] : [/\ (2 + 2 * i) ^+ 2 + (0 + 2 * j) ^+ 2 + (0 + 2 * k) ^+ 2 - 4 = 0, (0 + 2 * j) ^+ 2 = 0 & (0 + 2 * k) ^+ 2 = 0].
    have [ly' lz'] : 0 < q y - q x /\ 0 < q z - q x by rewrite !subr_gt0.
    apply: (zero3 _ _ _ (q_gt0 x0) ly' lz'); try exact: long_sq; try exact: sq_ge0.
    rewrite -subr_le0 in le; apply: le_trans le; rewrite le_eqVlt; apply/orP; left; rewrite !rmorphB /= !rmorphD /= expr0n /= !mul0r !addr0.
    move: (((2 + 2 * i) ^+ 2)%:~R : F) (((0 + 2 * j) ^+ 2)%:~R : F) (((0 + 2 * k) ^+ 2)%:~R : F) (q x) (q y) (q z) => ? ? ? ? ? ?.
    by rewrite -subr_eq0; apply/eqP; move: (1%:~R : F) => ?; ringm Rg.
  have k0 := sq_eq0 h3; have j0 := sq_eq0 h2; subst j k.
  by case: (long_sq0 h1) => ->; [left | right; rewrite combN].
Qed.
Lemma face_tie x y z : ortho x y z -> face x y z -> q x = q y -> sym (half (x + y)) /\
  (act (half (x + y)) x = y /\ act (half (x + y)) z = - z).
Proof.
move=> o f e; have [[x0 y0 z0] [xy xz yz]] := o; have qx : q x != 0 by rewrite dot_eq0.
have qa : q (x + y) = q x *+ 2 by rewrite dotDl !dotDr (dotC y x) xy -e addr0 add0r mulr2n.
have a0 : x + y != 0 by rewrite -dot_eq0 qa mulrn_eq0.
have [hx hy hz] : [/\ act (half (x + y)) x = y, act (half (x + y)) y = x & act (half (x + y)) z = - z].
  split; last by apply: half_perp => //; rewrite dotDl xz yz addr0.
    by rewrite act_half // dotDr xy addr0 qa divff ?mulrn_eq0 // scale1r addrC addKr.
  by rewrite act_half // dotDr (dotC y x) xy add0r -e qa divff ?mulrn_eq0 // scale1r addrK.
have mv w : inL w -> inL (act (half (x + y)) w).
  move/f=> [i [j [k [ev ->]]]]; apply/f; exists j, i, (- k); split; first lia.
  by rewrite /comb !actD !actZ hx hy hz scalerN mulrNz scaleNr [X in X + _]addrC.
split=> //; apply: Lsym => //; first exact: half_orth.
by move=> w /mv; rewrite -act_mul half_sq // /act trmx1 mulmx1.
Qed.

(* ---- the sets of equivalent vectors of a face-centred lattice ---- *)
Definition cls v S := exists2 w, w \in S & pm v w.
Lemma clsP v : v \in pms nb -> exists2 S, S \in equals nb & cls v S.
Proof.
move=> /in_pm [w wn h]; exists (class_of nb w); first exact: equals_in.
by exists w; rewrite // mem_filter eqxx.
Qed.
Lemma cls_act v S R : S \in equals nb -> sym R -> cls v S -> cls (act R v) S.
Proof.
by move=> SE sR [w wS h]; have [w' w'S h'] := sym_class un sR SE wS; exists w' => //; apply: pmT h'; exact: pmA.
Qed.
Lemma cls_pm v v' S : pm v v' -> cls v' S -> cls v S.
Proof. by move=> h [w wS h']; exists w => //; exact: pmT h'. Qed.
Lemma cls_eq v S S' : S \in equals nb -> S' \in equals nb -> cls v S -> cls v S' -> S = S'.
Proof.
move=> SE SE' [w wS h] [w' wS' h']; apply: (equals_disjoint SE SE' wS).
by rewrite (pm_nb un (equals_sub SE wS) (equals_sub SE' wS') (pmT (pmC h) h')).
Qed.
Lemma cls_size a b S : S \in equals nb -> cls a S -> cls b S -> ~ pm a b -> (1 < size S)%N.
Proof.
move=> SE [w wS h] [w' wS' h'] np; have ww : w != w' by apply/eqP => e; apply: np; apply: (pmT h); rewrite e; exact: pmC.
have sub : {subset [:: w; w'] <= S} by move=> t; rewrite !inE => /orP[]/eqP ->.
by apply: (@uniq_leq_size _ [:: w; w'] S) => //; rewrite /= inE ww.
Qed.
Lemma cls2 a b c S : S \in equals nb -> (size S <= 2)%N -> cls a S -> cls b S -> cls c S -> ~ pm a b -> pm c a \/ pm c b.
Proof.
move=> SE z2 [w wS h] [w' wS' h'] [t tS ht] np; have ww : w != w' by apply/eqP => e; apply: np; apply: (pmT h); rewrite e; exact: pmC.
have sub : {subset [:: w; w'] <= S} by move=> r; rewrite !inE => /orP[]/eqP ->.
have u2 : uniq [:: w; w'] by rewrite /= inE ww.
have [_ e] := uniq_min_size u2 sub z2.
by move: tS; rewrite -e !inE => /orP[]/eqP tw; [left | right]; apply: (pmT ht); rewrite tw; exact: pmC.
Qed.
Lemma npm (i j k l m o : int) x y z : ortho x y z ->
  ~~ [|| [&& i == l, j == m & k == o] | [&& i == - l, j == - m & k == - o]] -> ~ pm (comb i j k x y z) (comb l m o x y z).
Proof.
move=> h /negP nh [e|]; first by apply: nh; case: (combz_inj h e) => -> -> ->; rewrite !eqxx.
by rewrite combN => e; apply: nh; case: (combz_inj h e) => -> -> ->; rewrite !eqxx orbT.
Qed.
Lemma ones_twos (l : seq nat) : sorted leq l -> (forall k, k \in l -> 0 < k <= 2)%N -> (sumn l <= 7)%N -> (3 <= count_mem 2 l)%N ->
  l = [:: 2; 2; 2]%N \/ l = [:: 1; 2; 2; 2]%N.
Proof.
move=> so m sl c3.
have [p e] : perm_eq l (nseq (count_mem 1 l) 1 ++ nseq (count_mem 2 l) 2)%N /\ sumn l = (count_mem 1 l + count_mem 2 l * 2)%N.
  elim: l m {so sl c3} => //= k l IH m; have [|p e] := IH; first by move=> t tl; apply: m; rewrite inE tl orbT.
  have : k = 1%N \/ k = 2%N by have := m k (mem_head _ _); lia.
  case=> ->; rewrite e /= ?add0n ?add1n; split; try lia; first by rewrite /= perm_cons.
  by rewrite perm_sym -cat1s perm_catCA /= perm_cons perm_sym.
move: p; have [e1|e1] : count_mem 1%N l = 0%N \/ count_mem 1%N l = 1%N by lia.
  have -> : count_mem 2%N l = 3%N by lia.
  by rewrite e1 => p; left; apply: (sorted_eq leq_trans anti_leq).
have -> : count_mem 2%N l = 3%N by lia.
by rewrite e1 => p; right; apply: (sorted_eq leq_trans anti_leq).
Qed.
Hypothesis small : forall S, S \in equals nb -> (size S <= 2)%N.
Hypothesis seven : (size nb <= 7)%N.
Hypothesis sums : size nb = sumn [seq size S | S <- equals nb].
Hypothesis pat : [seq size S | S <- equals nb] <> [:: 1; 2; 2; 2]%N.
Lemma no_face x y z S1 S2 : ortho x y z -> face x y z -> sym (half z) -> S1 \in equals nb -> S2 \in equals nb -> S1 != S2 ->
  cls (x + y) S1 -> cls (x - y) S1 -> cls (x + z) S2 -> cls (x - z) S2 -> False.
Proof.
move=> o f sz SE1 SE2 n12 c1 c1' c2 c2'.
have ob := o.
have e1 : x + y = comb 1 1 0 x y z by rewrite /comb !scale1r scale0r addr0.
have e1' : x - y = comb 1 (-1) 0 x y z by rewrite /comb scaleN1r !scale1r scale0r addr0.
have e2 : x + z = comb 1 0 1 x y z by rewrite /comb !scale1r scale0r addr0.
have e2' : x - z = comb 1 0 (-1) x y z by rewrite /comb scaleN1r !scale1r scale0r addr0.
have e3 : y + z = comb 0 1 1 x y z by rewrite /comb !scale1r scale0r add0r.
have e3' : y - z = comb 0 1 (-1) x y z by rewrite /comb scaleN1r !scale1r scale0r add0r.
have [S3 SE3 c3] : exists2 S, S \in equals nb & cls (y + z) S.
  apply: clsP; apply: (@face_side y z x); first by apply: orthoR; apply: orthoC.
  by apply: faceR; apply: faceC.
have [[x0 y0 z0] [xy xz yz]] := o.
have c3' : cls (y - z) S3.
  apply: cls_pm (cls_act SE3 sz c3); rewrite actD half_axis (half_perp z0) 1?dotC //; right.
  by rewrite opprD opprK.
have np1 : ~ pm (x + y) (x - y) by rewrite e1 e1' ; apply: (npm o).
have np2 : ~ pm (x + z) (x - z) by rewrite e2 e2' ; apply: (npm o).
have np3 : ~ pm (y + z) (y - z) by rewrite e3 e3' ; apply: (npm o).
have n13 : S1 != S3.
  by apply/eqP => e; rewrite -e in c3; case: (cls2 SE1 (small SE1) c1 c1' c3 np1); rewrite e3 ?e1 ?e1'; apply: (npm o).
have n23 : S2 != S3.
  by apply/eqP => e; rewrite -e in c3; case: (cls2 SE2 (small SE2) c2 c2' c3 np2); rewrite e3 ?e2 ?e2'; apply: (npm o).
have t1 : size S1 = 2%N by apply/eqP; rewrite eqn_leq small // (cls_size SE1 c1 c1').
have t2 : size S2 = 2%N by apply/eqP; rewrite eqn_leq small // (cls_size SE2 c2 c2').
have t3 : size S3 = 2%N by apply/eqP; rewrite eqn_leq small // (cls_size SE3 c3 c3').
have u3 : uniq [:: S1; S2; S3] by rewrite /= !inE negb_or n12 n13 n23.
have six : size nb = 6%N.
  have := @ones_twos [seq size S | S <- equals nb].
  case=> //; last by move=> e; rewrite sums e.
  - have [ks [_ _ ->]] := equals_classes nb; rewrite sorted_map; apply: sort_sorted => a b; exact: leq_total.
  - move=> k /mapP[S SE ->]; rewrite small // andbT; have [v vn ->] := equalsP SE.
    by rewrite size_filter -has_count; apply/hasP; exists v.
  - by rewrite -sums.
  rewrite count_map -size_filter; apply: (@uniq_leq_size _ [:: S1; S2; S3]) => // S; rewrite !inE mem_filter /= => /or3P[]/eqP ->.
  + by rewrite t1 SE1.
  + by rewrite t2 SE2.
  + by rewrite t3 SE3.
have all_in v : v \in pms nb -> [\/ cls v S1, cls v S2 | cls v S3].
  move=> /clsP [S SE cv]; have : S \in [:: S1; S2; S3].
    apply/negPn/negP => ns; have u4 : uniq [:: S; S1; S2; S3] by rewrite /= ns.
    have sub : {subset [:: S; S1; S2; S3] <= equals nb} by move=> T; rewrite !inE => /or4P[]/eqP ->.
    have : (6 < sumn [seq size S | S <- equals nb])%N; last by rewrite -sums six.
    have [|l4 /perm_to_subseq [r4 pr4] pl4] := (count_subseqP [:: S; S1; S2; S3] (equals nb)).1.
      by move=> T; rewrite count_uniq_mem // count_uniq_mem ?equals_uniq //; case: (boolP (T \in [:: S; S1; S2; S3])) => // /sub ->.
    rewrite (perm_sumn (perm_map size pr4)) map_cat sumn_cat -(perm_sumn (perm_map size pl4)) /= t1 t2 t3.
    have : (0 < size S)%N by case: cv => w; case: (S).
    by move: (size S) (sumn _) => a b; clear; lia.
  rewrite !inE => /or3P[]/eqP e; rewrite -e; by [apply: Or31 | apply: Or32 | apply: Or33].
have long v : v \in pms nb -> pm v (x + y) \/ pm v (x - y) \/ pm v (x + z) \/ pm v (x - z) \/ pm v (y + z) \/ pm v (y - z).
  move=> /all_in [] c.
  - by case: (cls2 SE1 (small SE1) c1 c1' c np1) => h; tauto.
  - by case: (cls2 SE2 (small SE2) c2 c2' c np2) => h; tauto.
  - by case: (cls2 SE3 (small SE3) c3 c3' c np3) => h; tauto.
have nlx : ~ (q x < q y /\ q x < q z).
  move=> [h1 h2]; have := long _ (face_long o f h1 h2).
  have -> : x *+ 2 = comb 2 0 0 x y z by rewrite /comb !scale0r !addr0 -scaler_nat.
  by rewrite e1 e1' e2 e2' e3 e3' => -[|[|[|[|[|]]]]]; apply: (npm o).
have nly : ~ (q y < q x /\ q y < q z).
  move=> [h1 h2]; have := long _ (face_long (orthoC o) (faceC f) h1 h2).
  have -> : y *+ 2 = comb 0 2 0 x y z by rewrite /comb !scale0r !addr0 add0r -scaler_nat.
  by rewrite e1 e1' e2 e2' e3 e3' => -[|[|[|[|[|]]]]]; apply: (npm o).
have nlz : ~ (q z < q x /\ q z < q y).
  move=> [h1 h2]; have := long _ (face_long (orthoC (orthoR o)) (faceC (faceR f)) h1 h2).
  have -> : z *+ 2 = comb 0 0 2 x y z by rewrite /comb !scale0r !add0r -scaler_nat.
  by rewrite e1 e1' e2 e2' e3 e3' => -[|[|[|[|[|]]]]]; apply: (npm o).
have : [\/ q x = q y, q x = q z | q y = q z].
  case: (ltrgtP (q x) (q y)) => [h1|h1|->]; last by apply: Or31.
    case: (ltrgtP (q x) (q z)) => [h2|h2|->]; [by case: nlx | | by apply: Or32].
    by case: nlz; split=> //; exact: lt_trans h1.
  case: (ltrgtP (q y) (q z)) => [h2|h2|->]; [by case: nly | | by apply: Or33].
  by case: nlz; split=> //; exact: lt_trans h1.
case=> e.
- have [s [ex ez]] := face_tie o f e; have := cls_act SE2 s c2; rewrite actD ex ez => c.
  by case/eqP: n23; exact: cls_eq SE2 SE3 c c3'.
- have [s [ex ey]] := face_tie (orthoR o) (faceR f) e; have := cls_act SE1 s c1; rewrite actD ex ey => c.
  case/eqP: n13; apply: (cls_eq SE1 SE3 c); apply: cls_pm c3'; right; by rewrite opprB.
- have [s [ey ex]] := face_tie (orthoR (orthoC o)) (faceR (faceC f)) e; have := cls_act SE1 s c1; rewrite actD ey ex => c.
  case/eqP: n12; apply: (cls_eq SE1 SE2 c); apply: cls_pm c2'; right; by rewrite opprB addrC.
Qed.

(* ---- two pairs of vectors in orthogonal planes ---- *)
Hypothesis dep4 : forall a b u v, inL a -> inL b -> inL u -> inL v -> exists e1 e2 e3 e4 : bool,
  [|| e1, e2, e3 | e4] /\ exists2 w, inL w & e1%:R *: a + e2%:R *: b + e3%:R *: u + e4%:R *: v = w *+ 2.
Lemma cls_pms v S : S \in equals nb -> cls v S -> v \in pms nb.
Proof. by move=> SE [w wS h]; apply/in_pm; exists w => //; exact: equals_sub SE wS. Qed.
Lemma half_inj v w : v *+ 2 = w *+ 2 -> v = w.
Proof. by move/(congr1 (fun t => 2%:R^-1 *: t)); rewrite -!scaler_nat !scalerA mulVf ?pnatr_eq0 // !scale1r. Qed.
Lemma kappa_in x y z (k : F) : ortho x y z -> k != 0 -> x + y \in pms nb -> x - y \in pms nb -> k *: x + z \in pms nb -> k *: x - z \in pms nb ->
  sym (half y) -> sym (half z) -> inL ((1 + k) *: x).
Proof.
move=> o k0 pa pb pc pd sy sz; have [[x0 y0 z0] [xy xz yz]] := o.
have kx0 : k *: x != 0 by rewrite scaler_eq0 negb_or k0.
have nx := not_in x0 y0 xy pa.
have ny : ~ inL y by apply: (not_in y0 x0); rewrite 1?dotC // addrC.
have kxz : dot (k *: x) z = 0 by rewrite dotZl xz mulr0.
have nkx := not_in kx0 z0 kxz pc.
have nz' : ~ inL z by apply: (not_in z0 kx0); rewrite 1?dotC // addrC.
have [e1 [e2 [e3 [e4 [ne [w wL e]]]]]] := dep4 (pmsL pa) (pmsL pb) (pmsL pc) (pmsL pd).
have ew : w *+ 2 = (e1%:R + e2%:R + (e3%:R + e4%:R) * k) *: x + (e1%:R - e2%:R) *: y + (e3%:R - e4%:R) *: z.
  rewrite -e; apply/rowP => t; rewrite !mxE.
  move: (x 0 t) (y 0 t) (z 0 t) (e1%:R : F) (e2%:R : F) (e3%:R : F) (e4%:R : F) => ? ? ? ? ? ? ?.
  by apply/eqP; rewrite -subr_eq0; apply/eqP; ringm Rg.
have hy : inL ((e1%:R - e2%:R) *: y).
  have := LD wL (symL sy wL); congr inL; apply: half_inj; rewrite mulrnDl [act _ _ *+ 2]mulr2n -actD -mulr2n ew.
  have [_ -> _] := half_dec (e1%:R + e2%:R + (e3%:R + e4%:R) * k) (e1%:R - e2%:R) (e3%:R - e4%:R) o.
  by rewrite addrACA [X in X + _]addrACA -!scalerDl !subrr !scale0r add0r !addr0 scalerMnl mulr2n.
have hz : inL ((e3%:R - e4%:R) *: z).
  have := LD wL (symL sz wL); congr inL; apply: half_inj; rewrite mulrnDl [act _ _ *+ 2]mulr2n -actD -mulr2n ew.
  have [_ _ ->] := half_dec (e1%:R + e2%:R + (e3%:R + e4%:R) * k) (e1%:R - e2%:R) (e3%:R - e4%:R) o.
  by rewrite addrACA [X in X + _]addrACA -!scalerDl !subrr !scale0r !add0r scalerMnl mulr2n.
have e12 : e1 = e2.
  case: (e1) (e2) hy => [] [] //=; rewrite ?subr0 ?sub0r ?scaleNr scale1r //.
  by move/LN; rewrite opprK.
have e34 : e3 = e4.
  case: (e3) (e4) hz => [] [] //=; rewrite ?subr0 ?sub0r ?scaleNr scale1r //.
  by move/LN; rewrite opprK.
subst e2 e4; have ex : w = (e1%:R + e3%:R * k) *: x.
  apply: half_inj; rewrite ew !subrr !scale0r !addr0 scalerMnl; congr (_ *: _).
  by rewrite -!mulr2n mulrnDl mulrnAl.
rewrite ex in wL; move: ne wL; case: (e1); case: (e3) => //= _; rewrite ?add0r ?mul1r ?mul0r ?addr0 ?scale1r //.
Qed.
Lemma kappa_pos x y z (k : F) : ortho x y z -> 0 < k -> x + y \in pms nb -> k *: x + z \in pms nb -> inL ((1 - k) *: x) -> k = 1.
Proof.
move=> o k0 pa pc h; have [[x0 y0 z0] [xy xz yz]] := o.
have kx0 : k *: x != 0 by rewrite scaler_eq0 negb_or gt_eqF.
have kxz : dot (k *: x) z = 0 by rewrite dotZl xz mulr0.
have h2 (t : F) : (t / 2) *+ 2 = t by rewrite mulr2n -mulrDr halves mulr1.
case: (ltrgtP k 1) => // k1.
  have := key_coef (s := (1 - k) / 2) x0 y0 xy pa; rewrite h2 divr_ge0 ?ler0n ?subr_ge0 ?(ltW k1) //= => /(_ isT).
  rewrite ler_pdivr_mulr ?ltr0n // mulVf ?pnatr_eq0 // ler_subl_addl ler_addr ltW // => /(_ isT h) /eqP.
  by rewrite mulf_eq0 invr_eq0 pnatr_eq0 orbF subr_eq0 eq_sym => /eqP.
have := key_coef (s := ((k - 1) / k) / 2) kx0 z0 kxz pc; rewrite h2 !divr_ge0 ?ler0n ?subr_ge0 ?(ltW k1) ?(ltW k0) //= => /(_ isT).
rewrite ler_pdivr_mulr ?ltr0n // mulVf ?pnatr_eq0 // ler_pdivr_mulr // mul1r ger_addl oppr_le0 ler01 => /(_ isT).
rewrite scalerA divfK ?gt_eqF // => H; have /H/eqP : inL ((k - 1) *: x) by rewrite -opprB scaleNr; exact: LN.
by rewrite !mulf_eq0 !invr_eq0 pnatr_eq0 (gt_eqF k0) !orbF subr_eq0 => /eqP.
Qed.
Lemma no_frame x y z (k : F) S1 S2 : ortho x y z -> k != 0 -> S1 \in equals nb -> S2 \in equals nb -> S1 != S2 ->
  cls (x + y) S1 -> cls (x - y) S1 -> cls (k *: x + z) S2 -> cls (k *: x - z) S2 -> sym (half y) -> sym (half z) -> False.
Proof.
move=> o k0 SE1 SE2 n12 c1 c1' c2 c2' sy sz.
have [pa pb] := conj (cls_pms SE1 c1) (cls_pms SE1 c1'); have [pc pd] := conj (cls_pms SE2 c2) (cls_pms SE2 c2').
have h := kappa_in o k0 pa pb pc pd sy sz.
have h' : inL ((1 - k) *: x).
  have := LD (LD (pmsL pa) (pmsL pb)) (LN h); congr inL.
  by rewrite addrACA subrr addr0 scalerDl scale1r scalerBl scale1r opprD addrACA subrr add0r.
have [d2 d2'] : cls (x + z) S2 /\ cls (x - z) S2.
  case: (ltrgtP k 0) k0 => // k0 _.
    have pd' : (- k) *: x + z \in pms nb by rewrite -pmsN opprD scaleNr opprK.
    have k1 : - k = 1 by apply: (kappa_pos o _ pa pd'); rewrite ?oppr_gt0 // opprK.
    have {}k1 : k = -1 by rewrite -[k]opprK k1.
    move: c2 c2'; rewrite k1 scaleN1r => c2 c2'; split; [apply: cls_pm c2' | apply: cls_pm c2]; right; by rewrite opprD !opprK.
  have k1 := kappa_pos o k0 pa pc h'.
  by move: c2 c2'; rewrite k1 scale1r.
have f := face_of o pa pb (cls_pms SE2 d2) sy sz.
exact: no_face o f sz SE1 SE2 n12 c1 c1' d2 d2'.
Qed.

(* ---- the action of the symmetries on two pairs ---- *)
Definition fx R u v := pm (act R u) u /\ pm (act R v) v.
Definition sw R u v := pm (act R u) v /\ pm (act R v) u.
Lemma act_pair R u v : [:: u; v] \in equals nb -> u != v -> sym R -> fx R u v \/ sw R u v.
Proof.
move=> SE uv sR; have [uS vS] : u \in [:: u; v] /\ v \in [:: u; v] by rewrite !inE !eqxx orbT.
have [ub vb] := conj (equals_sub SE uS) (equals_sub SE vS).
have [w + h] := sym_class un sR SE uS; have [w' + h'] := sym_class un sR SE vS; rewrite !inE.
move=> /orP[]/eqP e' /orP[]/eqP e; subst w w'; [| right | left |] => //; case/eqP: uv; exact: (line_inj un sR.1 ub vb h h').
Qed.
Lemma sw_half u v (e : F) : q u = q v -> u + e *: v != 0 -> e * e = 1 -> sw (half (u + e *: v)) u v.
Proof.
move=> uv a0 ee; set a := u + e *: v.
have qa : q a = dot u a *+ 2.
  rewrite {1}/a dotDl dotZl mulr2n; congr (_ + _); rewrite /a !dotDr !dotZr mulrDr mulrA ee mul1r -uv (dotC v) addrC //.
have qa0 : q a != 0 by rewrite dot_eq0.
have va : dot v a = e * dot u a by rewrite /a !dotDr !dotZr mulrDr mulrA ee mul1r -uv (dotC v) addrC.
have e1 : e = 1 \/ e = -1.
  by have := sqrf_eq1 e; rewrite expr2 ee eqxx => /esym/orP[]/eqP; [left | right].
have hu : act (half a) u = e *: v by rewrite act_half // -qa divff // scale1r /a addrC addKr.
have hv : act (half a) v = e *: u.
  by rewrite act_half // va -mulrnAr -qa mulfK // /a scalerDr scalerA ee scale1r addrK.
split; rewrite ?hu ?hv; case: e1 => ->; rewrite ?scale1r ?scaleN1r; by [left | right].
Qed.
Lemma noperp u v p r R : [:: u; v] \in equals nb -> u != v -> p \in nb -> r \in nb -> p != r -> sym R -> sw R p r ->
  dot p u = 0 -> dot p v = 0 -> False.
Proof.
move=> SE uv pb rb pr sR [hp _] pu pv; have oR := sR.1.
have D s s' : pm (act R s) s' -> dot p s = 0 -> dot r s' = 0.
  move=> h d; apply: (pmdot (pmC hp)); rewrite dotC; apply: (pmdot (pmC h)); by rewrite dot_act // dotC.
have [ru rv] : dot r u = 0 /\ dot r v = 0.
  by case: (act_pair SE uv sR) => -[h1 h2]; split; [exact: D h1 _ | exact: D h2 _ | exact: D h2 _ | exact: D h1 _].
have ub : u \in nb by apply: (equals_sub SE); rewrite inE eqxx.
have vb : v \in nb by apply: (equals_sub SE); rewrite !inE eqxx orbT.
case/eqP: (npar pb rb pr); apply: (par_trans (npar ub vb uv)); exact: perp_par.
Qed.
Lemma sym_opp R : sym R -> sym (- R).
Proof.
move=> [o h]; split; first by rewrite /orthogonal linearN /= mulNmx mulmxN opprK.
by move=> v /h; rewrite actNM pmsN.
Qed.
Section Pairs.
Variables u v u2 v2 : 'rV[F]_3.
Hypothesis SE1 : [:: u; v] \in equals nb.
Hypothesis SE2 : [:: u2; v2] \in equals nb.
Hypothesis uv : u != v.
Hypothesis uv2 : u2 != v2.
Hypothesis n12 : [:: u; v] != [:: u2; v2].
Variables g h : 'M[F]_3.
Hypothesis sg : sym g.
Hypothesis sh : sym h.
Hypothesis swg : sw g u v.
Hypothesis swh : sw h u2 v2.
Lemma p_nb : [/\ u \in nb, v \in nb, u2 \in nb & v2 \in nb].
Proof. by split; [apply: (equals_sub SE1)|apply: (equals_sub SE1)|apply: (equals_sub SE2)|apply: (equals_sub SE2)]; rewrite !inE eqxx ?orbT. Qed.
Lemma p_ne : [/\ u != u2, u != v2, v != u2 & v != v2].
Proof.
have D s t : s \in [:: u; v] -> t \in [:: u2; v2] -> s != t.
  by move=> h1 h2; apply: contraNneq n12 => e; apply/eqP; apply: (equals_disjoint SE1 SE2 h1); rewrite e.
by split; apply: D; rewrite !inE eqxx ?orbT.
Qed.
Lemma p_four (A A' : 'M[F]_3) : act A u = act A' u -> act A v = act A' v -> act A u2 = act A' u2 -> act A v2 = act A' v2 -> A = A'.
Proof.
move=> h1 h2 h3 h4; have [b1 b2 b3 b4] := p_nb; have [d1 d2 d3 d4] := p_ne.
apply: (@all_fixed F nb ncop [:: u; v; u2; v2]) => //.
- by rewrite /= !inE !negb_or uv d1 d2 d3 d4 uv2.
- by move=> t; rewrite !inE => /or4P[]/eqP ->.
- by move=> t; rewrite !inE => /or4P[]/eqP ->.
Qed.
Lemma fix4 A : sym A -> fx A u v -> fx A u2 v2 -> A = 1%:M \/ A = - 1%:M.
Proof.
move=> [oA _] [fu fv] [fu2 fv2]; have [b1 b2 b3 b4] := p_nb; have [d1 d2 d3 d4] := p_ne.
have a1 t : act 1%:M t = t :> 'rV[F]_3 by rewrite /act trmx1 mulmx1.
have am t : act (- 1%:M) t = - t :> 'rV[F]_3 by rewrite act_opp.
have P s t : act A s = s -> act A t = - t -> dot s t = 0 by exact: sign_perp.
have N s t : act A s = - s -> act A t = t -> dot s t = 0 by move=> e1 e2; rewrite dotC; exact: P.
have sw' R s t : sw R s t -> sw R t s by case.
have Xc a b s t : a \in nb -> b \in nb -> s \in nb -> t \in nb -> a != b -> s != t -> dot s a = 0 -> dot s b = 0 -> dot t a = 0 -> dot t b = 0 -> False.
  move=> ab bb sb tb ne1 ne2 h1 h2 h3 h4; case/eqP: (npar sb tb ne2); apply: (par_trans (npar ab bb ne1)); exact: perp_par.
case: fu fv fu2 fv2 => eu [] ev [] eu2 [] ev2.
- by left; apply: p_four; rewrite !a1.
- by case: (noperp SE1 uv b4 b3 _ sh (sw' _ _ _ swh)); rewrite 1?eq_sym ?(N _ _ ev2 eu) ?(N _ _ ev2 ev).
- by case: (noperp SE1 uv b3 b4 uv2 sh swh); rewrite ?(N _ _ eu2 eu) ?(N _ _ eu2 ev).
- by case: (noperp SE1 uv b3 b4 uv2 sh swh); rewrite ?(N _ _ eu2 eu) ?(N _ _ eu2 ev).
- by case: (noperp SE2 uv2 b2 b1 _ sg (sw' _ _ _ swg)); rewrite 1?eq_sym ?(N _ _ ev eu2) ?(N _ _ ev ev2).
- by case: (@Xc u u2 v v2); rewrite ?(N _ _ ev eu) ?(N _ _ ev eu2) ?(N _ _ ev2 eu) ?(N _ _ ev2 eu2).
- by case: (@Xc u v2 v u2); rewrite ?(N _ _ ev eu) ?(N _ _ ev ev2) ?(N _ _ eu2 eu) ?(N _ _ eu2 ev2).
- by case: (noperp SE2 uv2 b1 b2 uv sg swg); rewrite ?(P _ _ eu eu2) ?(P _ _ eu ev2).
- by case: (noperp SE2 uv2 b1 b2 uv sg swg); rewrite ?(N _ _ eu eu2) ?(N _ _ eu ev2).
- by case: (@Xc u v2 v u2); rewrite ?(P _ _ ev eu) ?(P _ _ ev ev2) ?(P _ _ eu2 eu) ?(P _ _ eu2 ev2).
- by case: (@Xc u u2 v v2); rewrite ?(P _ _ ev eu) ?(P _ _ ev eu2) ?(P _ _ ev2 eu) ?(P _ _ ev2 eu2).
- by case: (noperp SE2 uv2 b2 b1 _ sg (sw' _ _ _ swg)); rewrite 1?eq_sym ?(P _ _ ev eu2) ?(P _ _ ev ev2).
- by case: (noperp SE1 uv b3 b4 uv2 sh swh); rewrite ?(P _ _ eu2 eu) ?(P _ _ eu2 ev).
- by case: (noperp SE1 uv b3 b4 uv2 sh swh); rewrite ?(P _ _ eu2 eu) ?(P _ _ eu2 ev).
- by case: (noperp SE1 uv b4 b3 _ sh (sw' _ _ _ swh)); rewrite 1?eq_sym ?(P _ _ ev2 eu) ?(P _ _ ev2 ev).
- by right; apply: p_four; rewrite !am.
Qed.
Definition st R (b1 b2 : bool) := (if b1 then sw R u v else fx R u v) /\ (if b2 then sw R u2 v2 else fx R u2 v2).
Lemma st_mul R A (b1 b2 c1 c2 : bool) : st R b1 b2 -> st A c1 c2 -> st (R *m A) (b1 (+) c1) (b2 (+) c2).
Proof.
have M a b c : pm (act A a) b -> pm (act R b) c -> pm (act (R *m A) a) c.
  by move=> h1 h2; rewrite act_mul; apply: pmT h2; exact: pmA.
rewrite /st => -[h1 h2] [h3 h4]; split.
- by case: b1 c1 h1 h3 => [] [] /= [? ?] [? ?]; split; eauto.
- by case: b2 c2 h2 h4 => [] [] /= [? ?] [? ?]; split; eauto.
Qed.
Lemma st_ex R : sym R -> exists b1 b2 : bool, st R b1 b2.
Proof.
by move=> sR; case: (act_pair SE1 uv sR) (act_pair SE2 uv2 sR) => h1 [] h2; [exists false, false | exists false, true | exists true, false | exists true, true].
Qed.
Lemma st_00 A : sym A -> st A false false -> A = 1%:M \/ A = - 1%:M. Proof. by move=> sA [h1 h2]; exact: fix4. Qed.
Lemma sym_sq A : sym A -> A *m A = 1%:M.
Proof.
move=> sA; have [b1 [b2 hA]] := st_ex sA; have := st_mul hA hA; rewrite !addbb => /(st_00 (sym_mul sA sA)) [//|e].
have : \det A ^+ 2 = -1 by rewrite expr2 -det_mulmx e -scaleN1r detZ det1 mulr1 -signr_odd /= expr1.
by move=> d; have := sqr_ge0 (\det A); rewrite d oppr_ge0 ler10.
Qed.
Lemma sym_comm A B : sym A -> sym B -> A *m B = B *m A.
Proof.
move=> sA sB; have e := sym_sq (sym_mul sA sB).
have <- : A *m (A *m B *m (A *m B)) *m B = B *m A.
  by rewrite -!mulmxA (sym_sq sB) mulmx1 mulmxA (sym_sq sA) mul1mx.
by rewrite e mulmx1.
Qed.
End Pairs.

(* a symmetry that keeps the lines of one pair and swaps the others is a half turn up to sign *)
Lemma half_of u v u2 v2 k g : u \in nb -> v \in nb -> u != v -> u2 \in nb -> v2 \in nb -> u2 != v2 -> sym k -> fx k u2 v2 -> sw k u v -> k *m g = g *m k -> sw g u2 v2 ->
  sym (half (cr u2 v2)) /\ sw (half (cr u2 v2)) u v.
Proof.
move=> ub vb uv u2b v2b uv2 sk [f1 f2] [s1 s2] cm [g1 _].
have y0 := npar u2b v2b uv2; set y := cr u2 v2.
have key A : sym A -> act A u2 = - u2 -> act A v2 = - v2 -> sw A u v -> sym (half y) /\ sw (half y) u v.
  move=> sA e1 e2 sw1; suff <- : A = half y by [].
  have [ey|ey] : pm (act A y) y by apply: (cr_act sA.1); [right | right].
    apply: (ext3 y0); rewrite -/y; last by rewrite half_axis.
      by rewrite e1 half_perp // dotC /y dot_crl.
    by rewrite e2 half_perp // dotC /y dot_crr.
  have A1 : A = - 1%:M by apply: (ext3 y0); rewrite !act_opp.
  case/eqP: uv; apply: (pm_nb un ub vb); case: sw1 => + _; rewrite A1 act_opp; apply: pmT; right; by rewrite opprK.
have same : act k v2 = v2 /\ act k u2 = u2 \/ act k v2 = - v2 /\ act k u2 = - u2.
  have c : act k (act g u2) = act g (act k u2) by rewrite -!act_mul cm.
  case: f1 => e; [left | right]; split=> //; move: c; rewrite e ?actN; case: g1 => ->; rewrite ?actN //.
    by move/eqP; rewrite eqr_opp => /eqP.
  by move/eqP; rewrite eqr_opp => /eqP.
case: same => -[e2 e1]; last by apply: (key k).
apply: (key (- k)); rewrite ?actNM ?e1 ?e2 //; first exact: sym_opp.
by rewrite /sw !actNM; split; [move: s1 | move: s2] => -[->|->]; rewrite ?opprK; by [left | right].
Qed.
Lemma frame u v u2 v2 : [:: u; v] \in equals nb -> [:: u2; v2] \in equals nb -> u != v -> u2 != v2 -> [:: u; v] != [:: u2; v2] ->
  sym (half (cr u2 v2)) -> sw (half (cr u2 v2)) u v -> sym (half (cr u v)) -> sw (half (cr u v)) u2 v2 -> False.
Proof.
move=> SE1 SE2 uv uv2 n12 sy wy sz wz; have [ub vb u2b v2b] := p_nb SE1 SE2; have [d1 d2 d3 d4] := p_ne SE1 SE2 n12.
set y := cr u2 v2 in sy wy *; set z := cr u v in sz wz *.
have y0 : y != 0 by exact: npar. have z0 : z != 0 by exact: npar.
have [qy qz] : q y != 0 /\ q z != 0 by rewrite !dot_eq0.
have [yu2 yv2] : dot y u2 = 0 /\ dot y v2 = 0 by rewrite !(dotC y) /y dot_crl dot_crr.
have [zu zv] : dot z u = 0 /\ dot z v = 0 by rewrite !(dotC z) /z dot_crl dot_crr.
have yz : dot y z = 0.
  have l : pm (act (half y) z) z.
    by case: wy => w1 w2; apply: pmT (cr_act (half_orth y) w1 w2) _; rewrite crC /z; right.
  case: (half_line y0 l) => // p; case/eqP: y0.
  have p' : cr z y = 0 by rewrite crC p oppr0.
  apply: (ncop (D := [:: u; v; u2; v2])) => //.
  - by rewrite /= !inE !negb_or uv d1 d2 d3 d4 uv2.
  - by move=> t; rewrite !inE => /or4P[]/eqP ->.
  - move=> t; rewrite !inE => /or4P[]/eqP -> //; [exact: par_perp z0 p' zu | exact: par_perp z0 p' zv].
have zy : dot z y = 0 by rewrite dotC.
(* the components *)
have comp a s t : a != 0 -> s \in nb -> t \in nb -> s != t -> pm (act (half a) s) t ->
    let p := (dot s a / q a) *: a in [/\ p != 0, s - p != 0, dot (s - p) a = 0 & pm t ((s - p) - p)].
  move=> a0 sb tb st h p; have qa : q a != 0 by rewrite dot_eq0.
  have e : act (half a) s = - ((s - p) - p).
    by rewrite act_half // mulrnAl -scalerMnl -/p mulr2n !opprB addrA.
  have pt : pm t ((s - p) - p) by apply: pmT (pmC h) _; rewrite e; right.
  split=> //.
  - apply/eqP => p0; case/eqP: st; apply: (pm_nb un sb tb); apply: pmC; by move: pt; rewrite p0 !subr0.
  - apply/eqP => p0; case/eqP: st; apply: (pm_nb un sb tb); apply: pmC; move: pt; rewrite p0 sub0r.
    by move/eqP: p0; rewrite subr_eq0 => /eqP <- => pt; apply: pmT pt _; right.
  - by rewrite dotDl dotNl /p dotZl divfK // subrr.
have [Y0 X0 Xy vX] := comp y u v y0 ub vb uv wy.1; have [Z0 X20 X2z v2X] := comp z u2 v2 z0 u2b v2b uv2 wz.1.
set Y := (_ *: y) in Y0 X0 Xy vX; set Z := (_ *: z) in Z0 X20 X2z v2X.
have Xz : dot (u - Y) z = 0 by rewrite dotDl dotNl /Y dotZl yz mulr0 subr0 dotC.
have X2y : dot (u2 - Z) y = 0 by rewrite dotDl dotNl /Z dotZl zy mulr0 subr0 dotC.
have par : cr (u2 - Z) (u - Y) = 0.
  by apply: (par_trans (perp_npar y0 z0 yz)); exact: perp_par.
have eX := parE par X0; set k := (_ / _) in eX.
have k0 : k != 0 by apply: contraNneq X20 => k0; rewrite eX k0 scale0r.
have o : ortho (u - Y) Y Z.
  split; split=> //; first by rewrite /Y dotZr Xy mulr0.
  - by rewrite /Z dotZr Xz mulr0.
  - by rewrite /Y /Z dotZl dotZr yz !mulr0.
have hY : half Y = half y by apply: half_par => //; rewrite /Y crZl crxx scaler0.
have hZ : half Z = half z by apply: half_par => //; rewrite /Z crZl crxx scaler0.
apply: (no_frame o k0 SE1 SE2 n12).
- by rewrite subrK; exists u; [rewrite inE eqxx | left].
- by exists v; [rewrite !inE eqxx orbT | exact: pmC].
- by rewrite -eX subrK; exists u2; [rewrite inE eqxx | left].
- by rewrite -eX; exists v2; [rewrite !inE eqxx orbT | exact: pmC].
- by rewrite hY.
- by rewrite hZ.
Qed.
(* ---- the branch ---- *)
Lemma b_two (Pr : 'M[F]_3 -> Prop) a b u v u2 v2 R : (forall A A', Pr A -> Pr A' -> Pr (A *m A')) -> Pr (- 1%:M) ->
  [:: u; v] \in equals nb -> [:: u2; v2] \in equals nb -> u != v -> u2 != v2 -> [:: u; v] != [:: u2; v2] ->
  a != 0 -> b != 0 -> sym (half a) -> sym (half b) -> sw (half a) u v -> sw (half b) u2 v2 -> Pr (half a) -> Pr (half b) -> sym R -> Pr R.
Proof.
move=> PrM PrN SE1 SE2 uv uv2 n12 a0 b0 sa sb wa wb pa pb sR; have [ub vb u2b v2b] := p_nb SE1 SE2.
have sq A := @sym_sq u v u2 v2 SE1 SE2 uv uv2 n12 (half a) (half b) sa sb wa wb A.
have cm A B := @sym_comm u v u2 v2 SE1 SE2 uv uv2 n12 (half a) (half b) sa sb wa wb A B.
have st0 A := @st_00 u v u2 v2 SE1 SE2 uv uv2 n12 (half a) (half b) sa sb wa wb A.
have P1 : Pr 1%:M by exact: (Pr_1 PrM PrN).
have PO A : Pr A -> Pr (- A) by exact: Pr_opp.
have back A B : sym B -> Pr B -> sym (A *m B) -> Pr (A *m B) -> Pr A.
  by move=> sB pB _ pAB; have := PrM _ _ pAB pB; rewrite -mulmxA (sq _ sB) mulmx1.
have fin A : sym A -> st u v u2 v2 A false false -> Pr A by move=> sA /(st0 _ sA) [] ->; [exact: P1 | exact: PrN].
have mul := @st_mul u v u2 v2; have ss := @sym_mul F nb.
have one A B (b1 b2 : bool) : sym A -> sym B -> Pr B -> st u v u2 v2 A b1 b2 -> st u v u2 v2 B b1 b2 -> Pr A.
  move=> sA sB pB h1 h2; apply: (back _ _ sB pB); first exact: ss.
  by apply: fin; [exact: ss | have := mul _ _ _ _ _ _ h1 h2; rewrite !addbb].
have [r1 [r2 hR]] := st_ex SE1 SE2 uv uv2 sR.
have [g1 [g2 hg]] := st_ex SE1 SE2 uv uv2 sa; have [h1 [h2 hh]] := st_ex SE1 SE2 uv uv2 sb.
have neg A s t : s \in nb -> t \in nb -> s != t -> fx A s t -> sw A s t -> False.
  by move=> sn tn st [f1 _] [w1 _]; case/eqP: st; apply: (pm_nb un sn tn); exact: pmT (pmC f1) w1.
have {g1} hg : st u v u2 v2 (half a) true g2.
  by case: g1 hg => // -[f1 _]; case: (neg _ _ _ ub vb uv f1 wa).
have {h2} hh : st u v u2 v2 (half b) h1 true.
  by case: h2 hh => // -[_ f1]; case: (neg _ _ _ u2b v2b uv2 f1 wb).
have both (b1 b2 : bool) : g2 && h1 = false -> Pr R.
  move=> nb'; have hgh := mul _ _ _ _ _ _ hg hh; have pgh := PrM _ _ pa pb; have sgh := ss _ _ sa sb.
  case: r1 r2 g2 h1 nb' hR hg hh hgh => [] [] [] [] //= _ hR hg hh hgh; by [exact: fin hR | exact: (one _ _ _ _ sR sa pa hR hg) | exact: (one _ _ _ _ sR sb pb hR hh) | exact: (one _ _ _ _ sR sgh pgh hR hgh)].
case: (boolP (g2 && h1)) => [/andP[eg2 eh1]|/negbTE/both]; last exact.
rewrite eg2 in hg; rewrite eh1 in hh.
have no A B : sym A -> sym B -> st u v u2 v2 A true false -> st u v u2 v2 B false true -> False.
  move=> sA sB [wA fA] [fB wB].
  have [s1 w1] := half_of ub vb uv u2b v2b uv2 sA fA wA (cm _ _ sA sb) wb.
  have [s2 w2] := half_of u2b v2b uv2 ub vb uv sB fB wB (cm _ _ sB sa) wa.
  exact: (frame SE1 SE2 uv uv2 n12 s1 w1 s2 w2).
have hRg := mul _ _ _ _ _ _ hR hg; have sRg := ss _ _ sR sa.
case: r1 r2 hR hRg => [] [] hR hRg.
- exact: (one _ _ _ _ sR sa pa hR hg).
- by case: (no _ _ sR sRg hR hRg).
- by case: (no _ _ sRg sR hRg hR).
- exact: fin hR.
Qed.
End Mono.
