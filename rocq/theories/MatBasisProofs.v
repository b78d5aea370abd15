(* C23: matrix_basis. *)
From mathcomp Require Import all_ssreflect all_algebra.
From mathcomp Require Import complex zify.
From Verif Require Import Prelude PGE PGEProofs LinSpan Linalg.

Set Implicit Arguments.
Unset Strict Implicit.
Unset Printing Implicit Defensive.
Import GRing.Theory Num.Theory.
Local Open Scope ring_scope.
Local Open Scope complex_scope.

Lemma combinations2_uniq d : uniq (combinations2 d).
Proof.
apply: filter_uniq; apply: allpairs_uniq; rewrite ?enum_uniq //.
by move=> [a b] [c e] _ _.
Qed.
Lemma mem_combinations2 d p : (p \in combinations2 d) = (p.1 < p.2)%N.
Proof.
rewrite mem_filter; case: ltnP => //= _; apply/allpairsP; exists p.
by rewrite !mem_enum; case: p.
Qed.

Section Basis.
Variables (F : rcfType) (d : nat) (tl ds an : bool).
Local Notation C := F[i].
Local Notation rc := [rmorphism of real_complex F].
Local Notation tag := ('I_d + ('I_d * 'I_d) * bool)%type.

Definition bas0 (t : tag) : 'M[C]_d :=
  match t with
  | inl i => \matrix_(a, b) (((a == i) && (b == i))%:R -
                             [&& tl, a == d.-1 :> nat & b == d.-1 :> nat]%:R)
  | inr (p, false) => delta_mx p.1 p.2 + delta_mx p.2 p.1
  | inr (p, true) => 'i *: delta_mx p.1 p.2 - 'i *: delta_mx p.2 p.1
  end.
Arguments bas0 : simpl never.
Definition bkinds := (if ds then [:: false] else [::]) ++ (if an then [:: true] else [::]).
Definition diags : seq 'I_d := if ds then filter (fun i : 'I_d => tl ==> (i < d.-1)%N) (enum 'I_d) else [::].
Definition tags : seq tag := [seq inl i | i <- diags] ++ [seq inr (p, b) | p <- combinations2 d, b <- bkinds].

Lemma tags_uniq : uniq tags.
Proof.
rewrite /tags cat_uniq; apply/and3P; split.
- rewrite map_inj_uniq; last by move=> i j [].
  by rewrite /diags; case: ds => //; rewrite filter_uniq ?enum_uniq.
- by apply/hasPn => t /allpairsP [[p b] /= [_ _ ->]]; apply/negP => /mapP [].
- apply: allpairs_uniq; rewrite ?combinations2_uniq //; first by rewrite /bkinds; case: ds an => [] [].
  by move=> [p b] [q b'] _ _ /= [-> ->].
Qed.
Lemma mem_tags_inl i : (inl i \in tags) = ds && (tl ==> (i < d.-1)%N).
Proof.
rewrite mem_cat (_ : (_ \in [seq inr _ | _ <- _, _ <- _]) = false) ?orbF; last first.
  by apply/negP => /allpairsP [[p b] []].
rewrite mem_map; last by move=> a b [].
by rewrite /diags; case: ds; [rewrite (mem_filter _ i (enum _)) (mem_enum _ i) andbT | rewrite in_nil].
Qed.
Lemma mem_tags_inr p b : (inr (p, b) \in tags) = (p.1 < p.2)%N && (if b then an else ds).
Proof.
rewrite mem_cat (_ : (_ \in [seq inl _ | _ <- _]) = false) /=; last by apply/negP => /mapP [].
rewrite -mem_combinations2; apply/allpairsP/andP => [[[q c] /= [mq mc [-> ->]]]|[mp mb]].
  by rewrite mq; split=> //; move: mc; rewrite /bkinds; case: ds an c => [] [] [].
by exists (p, b); split=> //=; move: mb; rewrite /bkinds; case: ds an b {mp} => [] [] [].
Qed.

Definition rsum (c : tag -> F) : 'M[C]_d := \sum_(u <- tags) (c u)%:C *: bas0 u.

Lemma rsumE c : rsum c = \sum_(i : 'I_d | ds && (tl ==> (i < d.-1)%N)) (c (inl i))%:C *: bas0 (inl i)
  + \sum_(p : 'I_d * 'I_d | (p.1 < p.2)%N) \sum_(b <- bkinds) (c (inr (p, b)))%:C *: bas0 (inr (p, b)).
Proof.
rewrite /rsum big_cat big_map big_allpairs_dep; congr (_ + _).
  rewrite /diags; case: ds => /=; last by rewrite big_nil big_pred0.
  by rewrite big_filter big_enum_cond.
rewrite big_uniq ?combinations2_uniq //; apply: eq_bigl => p.
exact: mem_combinations2.
Qed.


Lemma bas0_inl_off i (a b : 'I_d) : a != b -> bas0 (inl i) a b = 0.
Proof.
move=> nab; rewrite mxE.
have -> : (a == i) && (b == i) = false.
  by apply/negP => /andP [/eqP E /eqP E']; rewrite E E' eqxx in nab.
suff -> : [&& tl, a == d.-1 :> nat & b == d.-1 :> nat] = false by rewrite subr0.
apply/negP => /and3P [_ /eqP E /eqP E']; case/eqP: nab; apply: val_inj.
by rewrite /= E E'.
Qed.
Lemma bas0_inr_diag (p : 'I_d * 'I_d) (k : bool) (a : 'I_d) : (p.1 < p.2)%N -> bas0 (inr (p, k)) a a = 0.
Proof.
move=> lp; have npp : (p.1 == p.2) = false by apply/negP => /eqP E; rewrite E ltnn in lp.
have X : (a == p.1) && (a == p.2) = false by have [->|//] := eqVneq a p.1.
by case: k; rewrite !mxE [(a == p.2) && _]andbC X ?mulr0 ?subrr ?addr0.
Qed.
(* above the diagonal only one pair contributes *)
Lemma bas0_inr_off (p : 'I_d * 'I_d) (k : bool) (a b : 'I_d) : (p.1 < p.2)%N -> (a < b)%N ->
  bas0 (inr (p, k)) a b = if p == (a, b) then (if k then 'i else 1) else 0.
Proof.
case: p => i j /= lij lab.
have X : (a == j) && (b == i) = false.
  by apply/negP => /andP [/eqP E /eqP E']; rewrite E E' ltnNge ltnW in lab.
rewrite [(i, j) == _]/eq_op /= [i == a]eq_sym [j == b]eq_sym.
case: k; rewrite !mxE X ?mulr0 ?subr0 ?addr0; case: (_ && _) => //=.
by rewrite mulr1.
by rewrite mulr0.
Qed.

Lemma rsum_off c (a b : 'I_d) : (a < b)%N ->
  rsum c a b = (if ds then c (inr ((a, b), false)) else 0) +i* (if an then c (inr ((a, b), true)) else 0).
Proof.
move=> lab; have nab : a != b by apply/negP => /eqP E; rewrite E ltnn in lab.
rewrite rsumE mxE !summxE big1 ?add0r => [|i _]; last by rewrite mxE bas0_inl_off // mulr0.
rewrite (bigD1 (a, b)) //= [X in _ + X]big1 ?addr0 => [|p /andP [lp np]]; last first.
  rewrite summxE; apply: big1 => k _; rewrite mxE bas0_inr_off // (negPf np) mulr0 //.
rewrite summxE (eq_bigr (fun k => (c (inr (a, b, k)))%:C * (if k then 'i else 1))); last first.
  by move=> k _; rewrite mxE bas0_inr_off // eqxx.
by rewrite /bkinds; case: ds an => [] []; rewrite /= ?big_cons ?big_nil //= ?addr0 ?mulr1; simpc.
Qed.

Lemma rsum_diag c (a : 'I_d) : ds -> (tl ==> (a < d.-1)%N) -> rsum c a a = (c (inl a))%:C.
Proof.
move=> Hds Ha.
rewrite rsumE mxE !summxE [X in _ + X]big1 ?addr0 => [|p lp]; last first.
  by rewrite summxE; apply: big1 => k _; rewrite mxE bas0_inr_diag // mulr0.
have nl : [&& tl, a == d.-1 :> nat & a == d.-1 :> nat] = false.
  by apply/negP => /and3P [t /eqP E _]; rewrite t /= E ltnn in Ha.
rewrite (bigD1 a) ?Hds //= [X in _ + X]big1 ?addr0 => [|i /andP [_ ni]]; rewrite ![_ a a]mxE nl ?eqxx /=.
  by rewrite subr0 mulr1.
by rewrite [a == i]eq_sym (negPf ni) subr0 mulr0.
Qed.

(* the members and their real combinations are Hermitian, traceless ... *)
Definition P0 (X : 'M[C]_d) : Prop :=
  [/\ dagger X = X, (tl -> \tr X = 0), (~~ ds -> forall a b, complex.Re (X a b) = 0) &
      (~~ an -> forall a b, complex.Im (X a b) = 0)].

Lemma P0_0 : P0 0.
Proof. by split=> [|_|_ a b|_ a b]; rewrite ?dagger0 ?raddf0 ?mxE. Qed.
Lemma P0_D X Y : P0 X -> P0 Y -> P0 (X + Y).
Proof.
move=> [X1 X2 X3 X4] [Y1 Y2 Y3 Y4]; split=> [|t|t a b|t a b].
- by rewrite daggerD X1 Y1.
- by rewrite raddfD /= X2 // Y2 // addr0.
- by rewrite mxE raddfD /= X3 // Y3 // addr0.
- by rewrite mxE raddfD /= X4 // Y4 // addr0.
Qed.
Lemma P0_Z r X : P0 X -> P0 (r%:C *: X).
Proof.
move=> [X1 X2 X3 X4]; split=> [|t|t a b|t a b].
- by rewrite daggerZ conjc_real X1.
- by rewrite mxtraceZ X2 // mulr0.
- by rewrite mxE; case: (X a b) (X3 t a b) => x y /= ->; rewrite mulr0 mul0r subr0.
- by rewrite mxE; case: (X a b) (X4 t a b) => x y /= ->; rewrite mulr0 mul0r addr0.
Qed.

Lemma dagger_delta (i j : 'I_d) : dagger (delta_mx i j : 'M[C]_d) = delta_mx j i.
Proof.
by apply/matrixP => a b; rewrite !mxE andbC; case: (_ && _); rewrite ?rmorph1 ?rmorph0.
Qed.
Lemma conj_i : ('i : C)^* = - 'i. Proof. by simpc. Qed.
Lemma conj_Ni : (- 'i : C)^* = 'i. Proof. by simpc. Qed.

Lemma P0_bas t : t \in tags -> P0 (bas0 t).
Proof.
case: t => [i|[p b]]; rewrite ?mem_tags_inl ?mem_tags_inr.
  case/andP=> Hds Hi; split=> [|t|/negP|_ a b] //.
  - apply/matrixP => a b; rewrite !mxE rmorphB /= !rmorph_nat.
    by congr (_%:R - _%:R); [rewrite andbC | rewrite [X in _ && X]andbC].
  - rewrite t /= in Hi; have d0 : (0 < d)%N by apply: leq_ltn_trans (ltn_ord i).
    have ld : (d.-1 < d)%N by rewrite prednK.
    rewrite /mxtrace (eq_bigr (fun a : 'I_d => (a == i)%:R - (a == d.-1 :> nat)%:R)); last first.
      by move=> a _; rewrite mxE !andbb t.
    rewrite big_split sumrN /=.
    rewrite (bigD1 i) //= eqxx big1 ?addr0 => [|a /negPf -> //].
    rewrite (bigD1 (Ordinal ld)) //= eqxx big1 ?addr0 ?subrr // => a.
    by rewrite -(inj_eq val_inj) /= => /negPf ->.
  - by rewrite mxE; case: (_ && _); case: [&& _, _ & _]; rewrite /= ?subr0 ?oppr0.
case/andP=> lp; have npp : (p.1 == p.2) = false by apply/negP => /eqP E; rewrite E ltnn in lp.
have npp' : (p.2 == p.1) = false by rewrite eq_sym.
have tr0 (x y : 'I_d) : (x == y) = false -> \tr (delta_mx x y : 'M[C]_d) = 0.
  move=> nxy; rewrite /mxtrace big1 // => a _; rewrite mxE.
  by have [->|_] := eqVneq a x; rewrite ?nxy.
case: b => Hb; split=> [|_|n1 a b|n1 a b] //; try (by rewrite Hb in n1).
- by rewrite daggerD daggerN !daggerZ !dagger_delta conj_i scaleNr scaleNr opprK addrC.
- by rewrite raddfD /= raddfN /= !mxtraceZ !tr0 // !mulr0 subr0.
- by rewrite !mxE; do 2!case: (_ && _); simpc.
- by rewrite daggerD !dagger_delta addrC.
- by rewrite raddfD /= !tr0 // addr0.
- by rewrite !mxE; do 2!case: (_ && _); simpc.
Qed.

Lemma P0_rsum c : P0 (rsum c).
Proof.
rewrite /rsum big_seq; elim/big_ind: _ => [|X Y|t mt]; [exact: P0_0 | exact: P0_D | ].
by apply: P0_Z; apply: P0_bas.
Qed.

Definition coord (t : tag) (X : 'M[C]_d) : F :=
  match t with
  | inl i => complex.Re (X i i)
  | inr (p, false) => complex.Re (X p.1 p.2)
  | inr (p, true) => complex.Im (X p.1 p.2)
  end.

Lemma coord_rsum t c : t \in tags -> coord t (rsum c) = c t.
Proof.
case: t => [i|[[a b] k]]; rewrite ?mem_tags_inl ?mem_tags_inr.
  by case/andP=> H1 H2; rewrite /= rsum_diag.
by case/andP=> /= l; case: k => H; rewrite rsum_off // H.
Qed.

Lemma rsum_coord X : P0 X -> X = rsum (fun t => coord t X).
Proof.
move=> PX; have [H1 H2 H3 H4] := PX; have [S1 S2 S3 S4] := P0_rsum (fun t => coord t X).
have off (a b : 'I_d) : (a < b)%N -> X a b = rsum (coord^~ X) a b.
  move=> l; rewrite rsum_off //=.
  case: (X a b) (fun t => H3 t a b) (fun t => H4 t a b) => x y /= Hx Hy.
  by congr (_ +i* _); [case: ds Hx => // -> | case: an Hy => // ->].
have herm (Y : 'M[C]_d) : dagger Y = Y -> forall a b, Y a b = (Y b a)^* by move=> E a b; rewrite -{1}E !mxE.
have imd (Y : 'M[C]_d) : dagger Y = Y -> forall a, Y a a = (complex.Re (Y a a))%:C.
  move=> /herm H a; have := H a a; case: (Y a a) => x y [] E /=.
  suff -> : y = 0 by []; apply/eqP; have : y *+ 2 == 0 by rewrite mulr2n {1}E addNr.
  by rewrite mulrn_eq0.
have dg (a : 'I_d) : tl ==> (a < d.-1)%N -> X a a = rsum (coord^~ X) a a.
  move=> Ha; case Hds: ds; first by rewrite rsum_diag //= -imd.
  by rewrite (imd X) // (imd (rsum _)) // H3 ?Hds // S3 ?Hds.
apply/matrixP => a b; case: (ltngtP a b) => [/off //|l|/val_inj ->].
  by rewrite (herm X H1) (herm _ S1) off.
case Ht: (tl ==> (b < d.-1)%N); first exact: dg.
move/negbT: Ht; rewrite negb_imply -leqNgt => /andP [t lb].
have rest (Y : 'M[C]_d) : \tr Y = 0 -> Y b b = - \sum_(a | a != b) Y a a.
  by rewrite /mxtrace (bigD1 b) //= => /eqP; rewrite addr_eq0 => /eqP.
rewrite (rest X) ?H2 // (rest (rsum _)) ?S2 //; congr (- _); apply: eq_bigr => i nib.
apply: dg; rewrite t /=; move: nib; rewrite -(inj_eq val_inj) /=.
by move: (ltn_ord i) (ltn_ord b) lb; lia.
Qed.

Lemma bas0_basis : is_basis rc [seq bas0 t | t <- tags] P0.
Proof.
apply: (dual_basis (co := coord)); first exact: tags_uniq.
- by move=> t c mt; apply: coord_rsum.
- by move=> v /rsum_coord.
- exact: P0_rsum.
Qed.
End Basis.

Section Main.
Variables (F : rcfType) (d : nat).
Local Notation C := F[i].
Local Notation rc := [rmorphism of real_complex F].

Lemma matrix_basisE tl anti real : matrix_basis d tl anti real =
  [seq (if anti then 'i else 1 : C) *: X
  | X <- [seq bas0 F tl t | t <- tags d tl (~~ (real && anti)) (~~ (real && ~~ anti))]].
Proof.
set ds := ~~ (real && anti); set an := ~~ (real && ~~ anti); set co := (if anti then _ else _ : C).
rewrite /matrix_basis -/ds -/an -/co /tags !map_cat; congr (_ ++ _).
  rewrite -[RHS]map_comp -[RHS]map_comp /diags /ds; case: (real && anti) => //=.
  case: tl => /=; last first.
    rewrite (@eq_filter _ _ predT) // filter_predT; apply: eq_map => i /=; congr (_ *: _).
    by apply/matrixP => a b; rewrite !mxE subr0.
  apply/eq_in_map => i; rewrite mem_filter => /andP [li _] /=; congr (_ *: _).
  apply/matrixP => a b; rewrite !mxE.
  have [E|_] := boolP ((a == i) && (b == i)).
    have -> : (a == d.-1 :> nat) && (b == d.-1 :> nat) = false.
      by case/andP: E => /eqP -> _; rewrite (ltn_eqF li).
    by rewrite subr0.
  by rewrite sub0r /=; case: (_ && _); rewrite ?oppr0.
elim: (combinations2 d) => //= p s IH; rewrite !map_cat -IH; congr (_ ++ _).
by rewrite /bkinds; clear IH; case: ds; case: an .
Qed.

(* C23 *)
Theorem C23_matrix_basis tl anti real :
  is_basis rc (matrix_basis d tl anti real)
    (fun X : 'M[C]_d => [/\ dagger X = (if anti then - X else X),
                            (real -> forall a b, complex.Im (X a b) = 0) & (tl -> \tr X = 0)]).
Proof.
rewrite matrix_basisE; set co := (if anti then _ else _ : C).
have co0 : co != 0 by rewrite /co; case: (anti); rewrite eq_complex /= oner_eq0 ?andbF.
apply: eq_basis (scale_basis co0 (bas0_basis F d tl _ _)) => X; rewrite /P0.
rewrite /co {co co0}; case: anti => /=; last first.
  rewrite invr1 scale1r andbF andbT /=; split=> [[H1 H2 _ H4]|[H1 H2 H3]]; split=> //.
  - by move=> r; apply: H4; rewrite r.
  - by rewrite negbK => /H2.
have iV : ('i : C)^-1 = - 'i.
  by apply/eqP; rewrite eq_sym -(inj_eq (mulIf (_ : ('i : C) != 0))) ?mulVf ?eq_complex /= ?oner_eq0 ?andbF //; simpc.
have reE a b : complex.Re ((- 'i *: X) a b) = complex.Im (X a b).
  by rewrite mxE; case: (X a b) => x y; rewrite /= oppr0 mul0r sub0r mulNr mul1r opprK.
rewrite iV andbT andbF daggerZ mxtraceZ conj_Ni; split=> [[H1 H2 H3 _]|[H1 H2 H3]]; split=> //.
- apply: (@scalerI _ _ ('i : C)); first by rewrite eq_complex /= oner_eq0 andbF.
  by rewrite H1 scalerN scaleNr.
- by move=> r a b; rewrite -reE H3 // r.
- move/H2/eqP; rewrite mulf_eq0 => /orP [|/eqP //].
  by rewrite oppr_eq0 eq_complex /= oner_eq0 andbF.
- by rewrite H1 scalerN scaleNr.
- by move/H3->; rewrite mulr0.
- by rewrite negbK => /H2 h a b; rewrite reE.
Qed.

(* the members themselves *)
Corollary C23_members tl anti real (X : 'M[C]_d) : List.In X (matrix_basis d tl anti real) ->
  [/\ dagger X = (if anti then - X else X), (real -> forall a b, complex.Im (X a b) = 0) & (tl -> \tr X = 0)].
Proof. by move=> mX; apply/(C23_matrix_basis tl anti real).2; apply: span_mem. Qed.

(* without [real] they span all (traceless) matrices over the complex numbers *)
Theorem C23_complex_span tl anti :
  is_basis [rmorphism of idfun] (matrix_basis d tl anti false) (fun X : 'M[C]_d => tl -> \tr X = 0).
Proof.
apply: complexify (C23_matrix_basis tl anti false) _ _ => [X|H K [h1 _ _] [k1 _ _] E].
  split=> [tX|[H [_ _ h] [K [_ _ k] ->]] t]; last by rewrite raddfD /= mxtraceZ h // k // mulr0 addr0.
  pose s : C := if anti then -1 else 1.
  have ss : s * s = 1 by rewrite /s; case: (anti); rewrite ?mulrNN mulr1.
  have sc : s^* = s by rewrite /s; case: (anti); rewrite ?rmorphN rmorph1.
  have sE (Y : 'M[C]_d) : (if anti then - Y else Y) = s *: Y.
    by rewrite /s; case: (anti); rewrite ?scaleN1r ?scale1r.
  have dtr (Y : 'M[C]_d) : \tr (dagger Y) = (\tr Y)^*.
    by rewrite /mxtrace rmorph_sum; apply: eq_bigr => i _; rewrite !mxE.
  have two : (2%:R : C) != 0 by rewrite pnatr_eq0.
  have two' : (2%:R^-1 : C)^* = 2%:R^-1 by rewrite conjc_inv rmorph_nat.
  exists (2%:R^-1 *: (X + s *: dagger X)).
    split=> // [|t]; rewrite ?sE; last by rewrite mxtraceZ raddfD /= mxtraceZ dtr tX // rmorph0 mulr0 addr0 mulr0.
    rewrite daggerZ two' daggerD daggerZ daggerK sc scalerA mulrC -scalerA; congr (_ *: _).
    by rewrite scalerDr scalerA ss scale1r addrC.
  exists ((2%:R^-1 * - 'i) *: (X - s *: dagger X)).
    split=> // [|t]; rewrite ?sE; last first.
      by rewrite mxtraceZ raddfB /= mxtraceZ dtr tX // rmorph0 mulr0 subr0 mulr0.
    have cj2 : (2%:R^-1 * - 'i : C)^* = 2%:R^-1 * 'i.
      by rewrite (rmorphM (conjc_rmorphism F)); congr (_ * _); [exact: two' | exact: conj_Ni].
    rewrite daggerZ cj2 daggerD daggerN daggerZ daggerK sc.
    rewrite mulrN scaleNr [RHS]scalerN scalerA [s * _]mulrC -[RHS]scalerN -[RHS]scalerA; congr (_ *: _).
    by rewrite opprB scalerBr scalerA ss scale1r.
  rewrite scalerA mulrCA mulrN -expr2 sqr_i opprK mulr1 -scalerDr addrACA subrr addr0.
  by rewrite -mulr2n -scaler_nat scalerA mulVf // scale1r.
have : dagger (H + 'i *: K) = 0 by rewrite E dagger0.
rewrite daggerD daggerZ h1 k1 conj_i => E'.
have E2 : H - 'i *: K = 0.
  move: E'; rewrite scaleNr; case: anti {h1 k1} => [|//]; rewrite scalerN -opprD => /eqP.
  by rewrite oppr_eq0 => /eqP.
have : (H + 'i *: K) + (H - 'i *: K) = 0 by rewrite E E2 addr0.
rewrite addrACA subrr addr0 -mulr2n -scaler_nat => /eqP.
by rewrite scaler_eq0 pnatr_eq0 => /eqP.
Qed.
End Main.
