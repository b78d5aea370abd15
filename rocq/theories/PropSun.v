(* C97: symmetry_adapted_sun *)
From mathcomp Require Import all_ssreflect all_algebra zify.
From mathcomp Require Import complex.
From Verif Require Import Prelude PGE PGEProofs LinSpan Star Nullspace Tolerance PropTol Linalg MatBasisProofs PropLinalg Lie PropLie SymBlocks PropBlocks SimultDiag PropSimult PropConserved StarAlg Sun.

Set Implicit Arguments.
Unset Strict Implicit.
Unset Printing Implicit Defensive.
Import Order.TTheory GRing.Theory Num.Theory.
Local Open Scope ring_scope.

(* ---- bases have the same size ---- *)
Section Size.
Variables (K C : fieldType) (e : {rmorphism K -> C}) (V : lmodType C).
Lemma indep_size (X Y : seq V) : indep e X -> (forall x, List.In x X -> span e Y x) -> (size X <= size Y)%N.
Proof.
move=> iX XY; rewrite leqNgt; apply/negP => lt.
have [c hc] := fin_all_exists (fun i : 'I_(size X) => XY _ (nth_In 0 (ltn_ord i))).
pose M : 'M[K]_(size X, size Y) := \matrix_(i, j) c i j.
have /rowV0Pn [v /sub_kermxP vM v0] : kermx M != 0.
  rewrite kermx_eq0 /row_free; apply/negP => /eqP r; have := rank_leq_col M; by rewrite r leqNgt lt.
have z : comb e X (rowf v) = 0.
  rewrite -combrE /combr (eq_bigr (fun j : 'I_(size X) => \sum_(k < size Y) e (v 0 j * M j k) *: Y`_k)) => [|j _].
    rewrite exchange_big big1 // => k _; rewrite -scaler_suml -rmorph_sum.
    by have /rowP /(_ k) := vM; rewrite !mxE => ->; rewrite rmorph0 scale0r.
  by rewrite [X in _ *: X]hc /comb scaler_sumr; apply: eq_bigr => k _; rewrite mxE scalerA rmorphM.
case/negP: v0; apply/eqP/rowP => j; rewrite mxE -rowfE; exact: (iX _ z).
Qed.
Lemma basis_size (X Y : seq V) P : is_basis e X P -> is_basis e Y P -> size X = size Y.
Proof.
move=> [iX hX] [iY hY]; apply/eqP; rewrite eqn_leq; apply/andP; split; apply: indep_size => // x xs.
  by apply/hY/hX; apply: span_mem.
by apply/hX/hY; apply: span_mem.
Qed.
End Size.

(* ---- L (x) 1 ---- *)
Section Tens.
Variables (F : rcfType) (N d n : nat).
Local Notation C := F[i].
Variable E : 'I_d -> 'M[C]_(N, n).
Hypotheses (oE : orthoE E) (cE : completeE E).
Local Notation T := (tens E).

Lemma tensE L b : T L *m E b = \sum_a L a b *: E a.
Proof.
rewrite /tens mulmx_suml; apply: eq_bigr => a _; rewrite mulmx_suml (bigD1 b) //= -scalemxAl -mulmxA oE eqxx mulmx1.
rewrite big1 ?addr0 // => c cb; rewrite -scalemxAl -mulmxA oE (negPf cb).
by rewrite (_ : (0%:R)%:M = 0) ?mulmx0 ?scaler0 //; apply/matrixP => i j; rewrite !mxE mul0rn.
Qed.
Lemma ext m (X Y : 'M[C]_(m, N)) : (forall b, X *m E b = Y *m E b) -> X = Y.
Proof.
move=> h; rewrite -[X]mulmx1 -[Y]mulmx1 -cE !mulmx_sumr; apply: eq_bigr => b _.
by rewrite !mulmxA h.
Qed.
Lemma tensM L L' : T L *m T L' = T (L *m L').
Proof.
apply: ext => b; rewrite -mulmxA !tensE mulmx_sumr.
rewrite (eq_bigr (fun c => \sum_a (L a c * L' c b) *: E a)) => [|c _]; last first.
  by rewrite -scalemxAr tensE scaler_sumr; apply: eq_bigr => a _; rewrite scalerA mulrC.
by rewrite exchange_big; apply: eq_bigr => a _; rewrite -scaler_suml mxE.
Qed.
Lemma tens_dag L : dag (T L) = T (dag L).
Proof.
rewrite /tens dag_sum exchange_big; apply: eq_bigr => a _; rewrite dag_sum; apply: eq_bigr => b _.
by rewrite dagZ dag_mul dagK dagE.
Qed.
Lemma tens1 : T 1%:M = 1%:M.
Proof.
apply: ext => b; rewrite tensE mul1mx (bigD1 b) //= mxE eqxx scale1r big1 ?addr0 // => a ab.
by rewrite mxE (negPf ab) scale0r.
Qed.
Lemma tensD L L' : T (L + L') = T L + T L'.
Proof.
apply: ext => b; rewrite mulmxDl !tensE -big_split; apply: eq_bigr => a _.
by rewrite mxE scalerDl.
Qed.
Lemma tensZ c L : T (c *: L) = c *: T L.
Proof.
apply: ext => b; rewrite -scalemxAl !tensE scaler_sumr; apply: eq_bigr => a _.
by rewrite mxE scalerA.
Qed.
Lemma tens0 : T 0 = 0. Proof. by rewrite -[0 in LHS](scale0r 0) tensZ scale0r. Qed.
Lemma tens_sum (I : Type) (r : seq I) (f : I -> 'M[C]_d) : T (\sum_(i <- r) f i) = \sum_(i <- r) T (f i).
Proof. by apply: (big_morph T tensD tens0). Qed.
Lemma tens_get L a b : dag (E a) *m T L *m E b = (L a b)%:M.
Proof.
rewrite -mulmxA tensE mulmx_sumr (bigD1 a) //= -scalemxAr oE eqxx scale_scalar_mx mulr1 big1 ?addr0 // => c ca.
by rewrite -scalemxAr oE (negPf (_ : a != c)) 1?scale_scalar_mx ?mulr0 //; [apply/matrixP => i j; rewrite !mxE mul0rn|move: ca; apply: contra => /eqP ->].
Qed.
Lemma tens_tr L : \tr (T L) = n%:R * \tr L.
Proof.
rewrite /tens raddf_sum /= [\tr L]/mxtrace mulr_sumr; apply: eq_bigr => a _; rewrite raddf_sum (bigD1 a) //=.
rewrite mxtraceZ mxtrace_mulC oE eqxx mxtrace1 mulrC big1 ?addr0 // => b ba.
by rewrite mxtraceZ mxtrace_mulC oE (negPf ba) mxtrace_scalar mul0rn mulr0.
Qed.
Lemma tens_size : N = (n * d)%N.
Proof.
apply/eqP; rewrite -(eqr_nat [numDomainType of C]) -(mxtrace1 _ N) -tens1 tens_tr mxtrace1 natrM //.
Qed.
Lemma tens_inj L L' : (0 < n)%N -> T L = T L' -> L = L'.
Proof.
move=> n0 e; apply/matrixP => a b; have := tens_get L a b; rewrite e tens_get => /matrixP /(_ (Ordinal n0) (Ordinal n0)).
by rewrite !mxE eqxx !mulr1n.
Qed.

Definition EV (v : 'cV[C]_d) : 'M[C]_(N, n) := \sum_a v a 0 *: E a.
Lemma EV_out v w : EV v *m dag (EV w) = T (v *m dag w).
Proof.
rewrite /EV /tens mulmx_suml; apply: eq_bigr => a _; rewrite dag_sum mulmx_sumr; apply: eq_bigr => b _.
by rewrite dagZ -scalemxAl -scalemxAr scalerA mxE big_ord1 dagE.
Qed.
Lemma EV_act L v : T L *m EV v = EV (L *m v).
Proof.
rewrite /EV mulmx_sumr (eq_bigr (fun b => \sum_a (L a b * v b 0) *: E a)) => [|b _].
  by rewrite exchange_big; apply: eq_bigr => a _; rewrite -scaler_suml mxE.
by rewrite -scalemxAr tensE scaler_sumr; apply: eq_bigr => a _; rewrite scalerA mulrC.
Qed.
Lemma EV_dot v w : dag (EV v) *m EV w = ((dag v *m w) 0 0)%:M.
Proof.
rewrite /EV dag_sum mulmx_suml mxE raddf_sum; apply: eq_bigr => a _; rewrite mulmx_sumr (bigD1 a) //=.
rewrite dagZ -scalemxAl -scalemxAr oE eqxx scalerA scale_scalar_mx mulr1 dagE big1 ?addr0 // => b ba.
rewrite -scalemxAl -scalemxAr oE (negPf (_ : a != b)) ?scale_scalar_mx; last by move: ba; apply: contra => /eqP ->.
by rewrite !mulr0; apply/matrixP => i j; rewrite !mxE mul0rn.
Qed.
Lemma EV_form L v w : dag (EV v) *m T L *m EV w = ((dag v *m L *m w) 0 0)%:M.
Proof. by rewrite -mulmxA EV_act EV_dot mulmxA. Qed.
Lemma EVZ c v : EV (c *: v) = c *: EV v.
Proof. by rewrite /EV scaler_sumr; apply: eq_bigr => a _; rewrite mxE scalerA. Qed.

(* ---- the subspaces met ---- *)
Hypothesis n0 : (0 < n)%N.
Definition good w (P : 'M[C]_(N, w)) := dag P *m P = 1%:M /\ exists L, P *m dag P = T L.
Lemma good_rank w (P : 'M[C]_(N, w)) : good P -> exists r (V : 'M[C]_(d, r)),
  [/\ w = (n * r)%N, dag V *m V = 1%:M & P *m dag P = T (V *m dag V)].
Proof.
case=> PP [L e].
have LL : L *m L = L.
  by apply: (tens_inj n0); rewrite -tensM -e mulmxA -[P *m dag P *m P]mulmxA PP mulmx1.
have dL : dag L = L by apply: (tens_inj n0); rewrite -tens_dag -e dag_mul dagK.
have [r [V VV VE]] := range_basis LL dL; exists r, V; split=> //; last by rewrite VE.
apply/eqP; rewrite -(eqr_nat [numDomainType of C]) natrM -(mxtrace1 _ w) -PP mxtrace_mulC e tens_tr -VE mxtrace_mulC VV.
by rewrite mxtrace1.
Qed.
Lemma good1 : good (1%:M : 'M[C]_N).
Proof. by split; [rewrite dag1 mulmx1|exists 1%:M; rewrite tens1 dag1 mulmx1]. Qed.
(* a split subspace *)
Lemma good_split (P : 'M[C]_(N, n)) : good P -> exists (v : 'cV[C]_d) (W : 'M[C]_n),
  [/\ dag v *m v = 1%:M, W *m dag W = 1%:M, dag W *m W = 1%:M & P = EV v *m W].
Proof.
move=> gP; have [PP _] := gP; have [r [v [e vv Pv]]] := good_rank gP.
have r1 : r = 1%N by move: e n0; rewrite -{1}[n]muln1 => /eqP; clear; case: n => // k; rewrite eqn_pmul2l // => /eqP <-.
move: v vv Pv {e}; rewrite {}r1 => v vv Pv.
have Ev : dag (EV v) *m EV v = 1%:M by rewrite EV_dot vv mxE eqxx.
pose W := dag (EV v) *m P; exists v, W.
have PW : P = EV v *m W by rewrite /W mulmxA EV_out -Pv -mulmxA PP mulmx1.
have WW : W *m dag W = 1%:M.
  by rewrite /W dag_mul dagK mulmxA -(mulmxA _ P) Pv -EV_out mulmxA -[_ *m EV v *m _ *m _]mulmxA !Ev mulmx1.
by split=> //; apply: mulmx1C.
Qed.
End Tens.

(* ---- one degenerate block ---- *)
Section Step.
Variable F : rcfType.
Local Notation C := F[i].
Lemma In_flatten_map (T U : Type) (f : T -> seq U) s y : List.In y (flatten (map f s)) <-> exists2 x, List.In x s & List.In y (f x).
Proof.
elim: s => [|x s IH] /=; first by split=> // -[].
split=> [/In_cat[h|/IH[z zs h]]|[z [->|zs] h]]; [by exists x; [left|]|by exists z; [right|]|by apply/In_cat; left|].
by apply/In_cat; right; apply/IH; exists z.
Qed.
Lemma sorted_blocks (tol : F) (lam : seq F) ind : 0 <= tol -> (0 < size lam)%N -> sorted <=%R lam ->
  split_list (@cabs F) tol [seq real_complex F x | x <- lam] = Ok ind ->
  [/\ all (fun p : nat * nat => p.1 < p.2)%N ind,
      flatten [seq iota p.1 (p.2 - p.1) | p <- ind] = iota 0 (size lam),
      forall p, List.In p ind -> (p.2 <= size lam)%N,
      forall p i j, List.In p ind -> (i < size lam)%N -> (p.1 <= i < p.2)%N = false -> (p.1 <= j < p.2)%N -> lam`_i != lam`_j &
      tol = 0 -> forall p i, List.In p ind -> (p.1 <= i < p.2)%N -> lam`_i = lam`_p.1].
Proof.
move=> t0 s0 so; set ev := map _ _ => spl; have s0' : (0 < size ev)%N by rewrite size_map.
have [bs [E lt fl cl far]] := C53_split_list (@cabs F) tol s0'.
have Eb : bs = ind by move: E; rewrite spl => -[].
rewrite {}Eb size_map in lt fl cl far; have [ap _ hi] := consecutive (ltr01 : (0 : F) < 1) lt fl.
have {}hi p : List.In p ind -> (p.2 <= size lam)%N by move/hi; rewrite add0n.
have mono i j : (i <= j)%N -> (j < size lam)%N -> lam`_i <= lam`_j.
  by move=> ij js; apply: (sorted_leq_nth le_trans lexx) => //; rewrite inE ?(leq_ltn_trans ij).
have evE i : (i < size lam)%N -> ev`_i = real_complex F lam`_i by move=> h; rewrite (nth_map 0).
have jump p : List.In p ind -> (p.2 < size lam)%N -> lam`_p.2.-1 < lam`_p.2.
  move=> pin ps; have := far p (proj1 (In_mem _ _) pin) ps; have ps' := leq_ltn_trans (leq_pred p.2) ps.
  rewrite !evE // => h; rewrite lt_neqAle mono ?leq_pred // andbT; apply/negP => /eqP e; move: h; rewrite e subrr.
  have -> : @cabs F 0 = 0 by rewrite /cabs /= expr0n addr0 sqrtr0.
  by rewrite ltNge divr_ge0 ?ler0n.
have step p i j : List.In p ind -> (i < p.2)%N -> (p.2 <= j)%N -> (j < size lam)%N -> lam`_i < lam`_j.
  move=> pin ip pj js; have p0 : (0 < p.2)%N by apply: leq_ltn_trans ip.
  have ps := leq_ltn_trans pj js; apply: le_lt_trans (lt_le_trans (jump p pin ps) (mono _ _ pj js)).
  by apply: mono; [rewrite -ltnS prednK|apply: leq_ltn_trans (leq_pred _) ps].
split=> //.
  move=> p i j pin il out /andP[pj jp]; have jl : (j < size lam)%N := leq_trans jp (hi p pin).
  have [pi|ip] := leqP p.2 i; first by rewrite gt_eqF // (step p).
  have [q qi iq] : exists2 q, q \in ind & (q.1 <= i < q.2)%N.
    have : i \in iota 0 (size lam) by rewrite mem_iota.
    rewrite -fl => /flattenP[_ /mapP[q qi ->]]; rewrite mem_iota subnKC ?(ltnW (allP lt _ qi)) // => h.
    by exists q.
  have /andP[iq1 iq2] := iq; have qin := proj2 (In_mem q ind) qi.
  have ip1 : (i < p.1)%N by move: out; rewrite ip andbT leqNgt => /negbFE.
  have ap2 : apart (fun p q : nat * nat => (p.2 <= q.1) || (q.2 <= p.1))%N (map id ind).
    by apply: apart_map ap => x y ->.
  rewrite map_id in ap2; have [e|ne] := eqVneq p q; first by rewrite e iq in out.
  have : ((p.2 <= q.1) || (q.2 <= p.1))%N.
    by apply: (apart_in ap2 _ pin qin); [move=> u v; rewrite orbC|apply/eqP].
  case/orP=> h; first by move: (leq_trans h iq1); rewrite leqNgt ip.
  by rewrite lt_eqF // (step q) // (leq_trans h pj).
move=> tz p i pin /andP[]; have pm := proj1 (In_mem p ind) pin.
elim: i => [|i IH] pi ie; first by move: pi; rewrite leqn0 => /eqP ->.
have [<- //|ne] := eqVneq p.1 i.+1.
have pi' : (p.1 <= i)%N by rewrite -ltnS ltn_neqAle ne.
have il : (i.+1 < size lam)%N := leq_trans ie (hi p pin).
rewrite -IH ?(ltn_trans _ ie) //; have := cl _ _ pm pi' ie; rewrite tz mul0r !evE // ?(ltnW il) // => h.
have [_ _ z _ _] := is_norm_complex F.
have : cabs (real_complex F lam`_i.+1 - real_complex F lam`_i) = 0.
  by apply/eqP; rewrite eq_le h sqrtr_ge0.
by move/z/eqP; rewrite subr_eq0 => /eqP /complexI.
Qed.

Variables (N d n : nat) (E : 'I_d -> 'M[C]_(N, n)).
Hypotheses (oE : orthoE E) (cE : completeE E) (n0 : (0 < n)%N).
Local Notation T := (tens E).
Local Notation good := (good E).
Variables (w : nat) (P : 'M[C]_(N, w)) (g : 'M[C]_N) (lam : seq F) (U : 'M[C]_w) (tol : F) (ind : seq (nat * nat)).
Hypotheses (gP : good P) (w0 : (0 < w)%N) (gT : exists L, g = T L) (eg : is_eigh (complex_star F) (dag P *m g *m P) lam U).
Hypotheses (t0 : 0 <= tol) (spl : split_list (@cabs F) tol [seq real_complex F x | x <- lam] = Ok ind).
Let uU : U *m dag U = 1%:M. Proof. by case: eg => u _ _ _; rewrite -adj_dag. Qed.
Let szl : size lam = w. Proof. by case: eg. Qed.
Let l0 : (0 < size lam)%N. Proof. by rewrite szl. Qed.
Let lso : sorted <=%R lam. Proof. by case: eg. Qed.
Let blk := sorted_blocks t0 l0 lso spl.
Lemma slice_sum : \sum_(be <- ind) (P *m col_slice be U) *m dag (P *m col_slice be U) = P *m dag P.
Proof.
have [lt fl _ _ _] := blk.
under eq_bigr do rewrite dag_mul mulmxA -(mulmxA P).
by rewrite -mulmx_suml -mulmx_sumr (col_sum_gen (ltr01 : (0 : F) < 1) uU lt) ?mulmx1 // fl szl.
Qed.
Lemma slice_good be : List.In be ind -> good (P *m col_slice be U).
Proof.
move=> bi; have [lt fl hi dif _] := blk; rewrite szl in hi dif.
have [PP [L PL]] := gP; have [Lg gL] := gT; have le := hi _ bi; split.
  by rewrite dag_mul mulmxA -(mulmxA _ _ P) PP mulmx1 slice_orth.
pose f (a : C) := has (fun j => real_complex F lam`_j == a) (iota be.1 (be.2 - be.1)).
have fE (i : 'I_w) : f (real_complex F lam`_i) = (be.1 <= i < be.2)%N.
  have lt' : (be.1 <= be.2)%N by rewrite ltnW // (allP lt) //; apply/In_mem.
  apply/hasP/idP => [[j]|h]; last by exists (i : nat); rewrite ?mem_iota ?subnKC.
  rewrite mem_iota subnKC // => bj /eqP /complexI e; apply/negPn/negP => /negPf out.
  by have := dif _ _ _ bi (ltn_ord i) out bj; rewrite e eqxx.
have sl : col_slice be U *m dag (col_slice be U) = U *m diag_mx (\row_i (f ((\row_i emb (complex_star F) lam`_i) 0 i))%:R) *m dag U.
  apply/matrixP => x y; rewrite !mxE.
  under eq_bigr do rewrite dagE !(col_sliceE le).
  rewrite (eq_bigr (fun z : 'I_w => if (be.1 <= z < be.2)%N then U x z * conjc (U y z) else 0)) => [|z _]; last first.
    rewrite mul_mx_diag !mxE (_ : f _ = (be.1 <= z < be.2)%N); last by rewrite -fE.
    by case: ifP; rewrite ?mulr1 // mulr0 mul0r.
  rewrite -big_mkcond /=.
  rewrite (eq_bigl (fun z => z \in [set pos le u | u : 'I_(be.2 - be.1)])) => [|z].
    by rewrite big_imset //= => u v _ _; apply: pos_inj.
  apply/idP/imsetP => [/(posP le)[u ->]|[u _ ->]]; first by exists u.
  exact: pos_in.
have := @fun_closed _ _ _ _ _ uU (let: And4 _ _ _ e := eg in e) (fun Y => exists L, P *m Y *m dag P = T L) f.
rewrite -sl => h; rewrite dag_mul !mulmxA -(mulmxA P); apply: h.
- by exists L; rewrite mulmx1.
- move=> Y Z b [L1 e1] [L2 e2]; exists (L1 + b *: L2).
  by rewrite mulmxDr mulmxDl e1 -scalemxAr -scalemxAl e2 tensD // tensZ.
- move=> Y [L1 e1]; exists (L *m Lg *m L1).
  by rewrite -!tensM // -PL -gL -e1 !mulmxA.
Qed.
Lemma slice_scalar be : tol = 0 -> List.In be ind -> exists c, dag (P *m col_slice be U) *m g *m (P *m col_slice be U) = c%:M.
Proof.
move=> tz bi; have [lt fl hi _ same] := blk; rewrite szl in hi.
have le := hi _ bi; exists (real_complex F lam`_be.1); set S := col_slice be U.
have -> : dag (P *m S) *m g *m (P *m S) = dag S *m ((dag P *m g *m P) *m S) by rewrite dag_mul !mulmxA.
have e : dag P *m g *m P *m S = real_complex F lam`_be.1 *: S.
  have [_ _ _ HU] := eg; apply/matrixP => x y; rewrite mxE; under eq_bigr do rewrite col_sliceE.
  have /matrixP /(_ x (pos le y)) := HU; rewrite mul_mx_diag [LHS]mxE => ->.
  rewrite [RHS]mxE col_sliceE mxE mulrC; congr (_ * _).
  by rewrite mxE /= (same tz be) //; exact: (pos_in le y).
by rewrite e -scalemxAr slice_orth // scalemx1.
Qed.
End Step.

(* ---- loops ---- *)
Lemma fold_inv (S T : Type) (f : S -> T -> res S) (I : S -> seq T -> Prop) st s :
  (forall st x s, I st (x :: s) -> exists2 st', f st x = Ok st' & I st' s) -> I st s ->
  exists2 st', fold_res f st s = Ok st' & I st' [::].
Proof.
move=> h; elim: s st => [|x s IH] st i; first by exists st.
by have [st' e /IH [st2 e2 i2]] := h _ _ _ i; exists st2; rewrite //= e.
Qed.

(* the polar factor of a multiple of a unitary *)
Lemma polar (F : rcfType) n (Q u vh : 'M[F[i]]_n) s (c : F[i]) : c != 0 -> Q *m dag Q = 1%:M ->
  is_svd (complex_star F) (c *: Q) u s vh -> u *m vh = (c / `|c|) *: Q.
Proof.
move=> c0 QQ [uu uv sz pos E]; rewrite /Star.unitary !adj_dag in uu uv.
have uu' := unitaryC uu; have uv' := unitaryC uv; have QQ' := unitaryC QQ.
set D := diag_rect _ n n s in E.
have DE : D = c *: (dag u *m Q *m dag vh).
  by rewrite scalemxAl scalemxAr E !mulmxA uu' mul1mx -mulmxA uv mulmx1.
have DD : dag D *m D = (`|c| ^+ 2)%:M.
  rewrite DE dagZ -scalemxAl -scalemxAr scalerA !dag_mul !dagK.
  have -> : vh *m (dag Q *m u) *m (dag u *m Q *m dag vh) = vh *m (dag Q *m (u *m dag u) *m Q) *m dag vh by rewrite !mulmxA.
  by rewrite uu mulmx1 QQ' mulmx1 uv sqr_normc scalemx1 mulrC.
have ds (x y : 'I_n) : D x y = if x == y then (s`_x)%:C%C else 0 by rewrite mxE.
have Dc : D = (`|c|)%:M.
  apply/matrixP => i j; rewrite ds mxE; case: eqVneq => [_|ne]; last by rewrite mulr0n.
  rewrite mulr1n; have := DD => /matrixP /(_ i i).
  rewrite !mxE eqxx mulr1n (bigD1 i) //= big1 ?addr0 => [|k ki]; last by rewrite [D k i]ds (negPf ki) mulr0.
  rewrite dagE ds eqxx mulrC -sqr_normc => e.
  have sp : 0 <= s`_i by apply: (allP pos); apply: mem_nth; rewrite sz minnn.
  have sp' : 0 <= (s`_i)%:C%C by rewrite ler0c.
  by move/eqP: e; rewrite (ger0_norm sp') eqr_expn2 // => /eqP.
have nc0 : `|c| != 0 by rewrite normr_eq0.
have e : c *: Q = `|c| *: (u *m vh) by rewrite E Dc mul_mx_scalar -scalemxAl.
by rewrite mulrC -scalerA e scalerA mulVf // scale1r.
Qed.

Section Loops.
Variables (F : rcfType) (tol atol : F).
Local Notation C := F[i].
Variables (eigh : forall n, 'M[C]_n -> seq F * 'M[C]_n) (svd : forall n, 'M[C]_n -> 'M[C]_n * 'M[C]_n).
Definition svd_contract := forall n (A : 'M[C]_n), exists s, is_svd (complex_star F) A (svd A).1 s (svd A).2.
Hypotheses (t0 : 0 <= tol) (a0 : 0 <= atol) (eighP : eigh_contract eigh) (svdP : svd_contract).
Variables (N d n : nat) (E : 'I_d -> 'M[C]_(N, n)).
Hypotheses (oE : orthoE E) (cE : completeE E) (n0 : (0 < n)%N).
Local Notation T := (tens E).
Local Notation good := (good E).

Definition pr (P : rect F N) : 'M[C]_N := tagged P *m dag (tagged P).
Definition okU (done : seq 'M[C]_N) (P : rect F N) : Prop :=
  [/\ good (tagged P), (0 < tag P)%N & tol = 0 -> forall g, List.In g done -> exists c, dag (tagged P) *m g *m tagged P = c%:M].
Definition okst done (st : sun_state F N n) : Prop :=
  (forall P, List.In P st.1 -> okU done P /\ tag P <> n) /\ forall Q, List.In Q st.2 -> good Q.
Definition psum (st : sun_state F N n) : 'M[C]_N := \sum_(P <- st.1) pr P + \sum_(Q <- st.2) Q *m dag Q.

Lemma slice_atE w (A : 'M[C]_(N, w)) (U : 'M[C]_w) (be : nat * nat) : (be.2 - be.1)%N = n ->
  mkr (A *m slice_at n be.1 U) = mkr (A *m col_slice be U).
Proof. by case: n /. Qed.

Lemma space_step done g P st : (exists L, g = T L) -> dag g = g -> okst (rcons done g) st -> okU done P ->
  exists2 st', sun_space tol eigh g st P = Ok st' & okst (rcons done g) st' /\ psum st' = psum st + pr P.
Proof.
case: P => w P gT hg ost [/= gP w0 old]; rewrite /sun_space /=.
have hgr : dag (dag P *m g *m P) = dag P *m g *m P by rewrite !dag_mul dagK hg mulmxA.
have eg := eighP hgr; case: (eigh _) eg => lam U /= eg.
have l0 : (0 < size [seq real_complex F x | x <- lam])%N by case: eg => _ e _ _; rewrite size_map e.
have [ind [spl lt _ _ _]] := C53_split_list (@cabs F) tol l0; rewrite spl /=.
have sg be : List.In be ind -> good (P *m col_slice be U) := slice_good oE cE gP w0 gT eg t0 spl (be := be).
pose X be : rect F N := mkr (P *m col_slice be U).
pose I (st' : sun_state F N n) (rest : seq (nat * nat)) := [/\ forall be, List.In be rest -> List.In be ind, okst (rcons done g) st' &
  psum st' + \sum_(be <- rest) pr (X be) = psum st + pr (mkr P)].
suff [] : exists2 st', fold_res (@sun_block F N n (mkr P) U) st ind = Ok st' & I st' [::].
  by move=> st' e [_ ok]; rewrite big_nil addr0 => sm; exists st'.
apply: fold_inv; last first.
  split=> //; congr (_ + _); exact: (slice_sum w0 eg t0 spl).
move=> [us ss] be rest [inr [okU_ okS] sm]; have bi := inr be (or_introl erefl).
have gX := sg _ bi; have [r [V [wr _ _]]] := good_rank oE cE n0 gX.
have dv : ((be.2 - be.1) %% n)%N = 0%N by rewrite wr modnMr.
have inr' b : List.In b rest -> List.In b ind by move=> h; apply: inr; right.
rewrite /sun_block /=; case: eqP => [e|ne].
  have eX := slice_atE P U e; eexists; first by []; split=> //=.
    split=> //= Q /In_rcons [|->]; first exact: okS.
    by have : good (tagged (X be)); [exact: gX|rewrite /X -eX].
  rewrite -sm /psum /= -cats1 big_cat big_seq1 big_cons /= -!addrA; congr (_ + (_ + (_ + _))).
  by rewrite -[RHS]/(pr (X be)) /X -eX.
rewrite dv eqxx; eexists; first by []; split=> //=.
  split=> //= Q /In_rcons [|->]; first exact: okU_.
  split=> //; split=> //=; first by rewrite subn_gt0; apply: (allP lt); apply/In_mem.
  move=> tz g' /In_rcons [g'd|->]; last exact: (slice_scalar w0 eg t0 spl).
  have [c ec] := old tz g' g'd; exists c.
  have l0' : (0 < size lam)%N by rewrite size_map in l0.
  have [_ _ hi _ _] := sorted_blocks t0 l0' (let: And4 _ _ so _ := eg in so) spl.
  have le : (be.2 <= w)%N by have := hi; case: eg => _ -> _ _; apply.
  have uU : U *m dag U = 1%:M by case: eg => u _ _ _; rewrite -adj_dag.
  have -> : dag (P *m col_slice be U) *m g' *m (P *m col_slice be U) = dag (col_slice be U) *m (dag P *m g' *m P) *m col_slice be U.
    by rewrite dag_mul !mulmxA.
  by rewrite ec mul_mx_scalar -scalemxAl slice_orth // scalemx1.
by rewrite -sm /psum /= -cats1 big_cat big_seq1 big_cons /= -!addrA; congr (_ + _); rewrite addrCA.
Qed.

Lemma split_loop gens : (forall g, List.In g gens -> dag g = g /\ exists L, g = T L) ->
  forall rest done st, gens = done ++ rest -> (forall P, List.In P st.1 -> okU done P) -> (forall Q, List.In Q st.2 -> good Q) ->
  psum st = 1%:M ->
  match sun_split tol eigh rest st with
  | Ok s => (forall Q, List.In Q s -> good Q) /\ \sum_(Q <- s) Q *m dag Q = 1%:M
  | Err e => e = ValueError /\ (rest <> [::] -> exists2 P, okU gens P & tag P <> n)
  end.
Proof.
move=> hg; elim=> [|g rest IH] done st e h1 h2 sm //=.
have [gh gT] : dag g = g /\ exists L, g = T L by apply: hg; rewrite e; apply/In_cat; right; left.
pose I (st' : sun_state F N n) (Ps : seq (rect F N)) := [/\ forall P, List.In P Ps -> okU done P, okst (rcons done g) st' &
  psum st' + \sum_(P <- Ps) pr P = 1%:M].
have [] : exists2 st', fold_res (sun_space tol eigh g) ([::], st.2) st.1 = Ok st' & I st' [::].
  apply: fold_inv; last by split=> //; rewrite /psum /= big_nil add0r addrC.
  move=> st' P Ps [hP ok sm']; have [st2 e2 [ok2 s2]] := space_step gT gh ok (hP P (or_introl erefl)).
  exists st2 => //; split=> // [Q Qs|]; first by apply: hP; right.
  by rewrite s2 -addrA -sm' big_cons.
move=> [us ss] -> [_ [okU' okS]]; rewrite big_nil addr0 => sm' /=.
have e' : gens = rcons done g ++ rest by rewrite e cat_rcons.
rewrite /= in okU' okS; case: us okU' sm' => [|P us] okU' sm'; first by split=> //; move: sm'; rewrite /psum /= big_nil add0r.
have := IH (rcons done g) (P :: us, ss) e' (fun Q h => Logic.proj1 (okU' Q h)) okS sm'.
case: (sun_split _ _ _ _) => // err [-> h]; split=> // _.
case: rest e e' h {IH} => [|g' rest] e e' h; last exact: h.
rewrite cats0 in e'; have [h3 h4] := okU' P (or_introl erefl).
by exists P; rewrite // e'.
Qed.

(* the generators of the algebra *)
Variable gens : seq 'M[C]_N.
Local Notation rc := [rmorphism of real_complex F].
Hypothesis bas : is_basis rc gens (fun X => exists2 L, dag L = L /\ \tr L = 0 & X = T L).
Lemma gen_form g : List.In g gens -> dag g = g /\ exists L, g = T L.
Proof.
by move=> h; have /(bas.2 _).2 [L [dL _] ->] := span_mem rc h; rewrite tens_dag dL; split=> //; exists L.
Qed.
Lemma never P : tol = 0 -> okU gens P -> tag P = n.
Proof.
move=> tz [gP w0 sc]; have [r [V [wr VV PV]]] := good_rank oE cE n0 gP; have [PP _] := gP.
have r0 : (0 < r)%N by move: w0; rewrite wr muln_gt0 => /andP[].
have [r1|r2] : r = 1%N \/ (1 < r)%N by case: (r) r0 => [|[|r']] // _; [left|right].
  by rewrite wr r1 muln1.
pose i := Ordinal r0; pose j := Ordinal r2.
pose D : 'M[C]_r := delta_mx i j + delta_mx j i.
have dD : dag D = D.
  apply/matrixP => x y; rewrite dagE !mxE (rmorphD (conjc_rmorphism F)) !rmorph_nat addrC.
  by rewrite ![(y == _) && _]andbC.
pose L := V *m D *m dag V.
have dL : dag L = L by rewrite /L !dag_mul dagK dD mulmxA.
have tL : \tr L = 0.
  rewrite /L mxtrace_mulC mulmxA VV mul1mx /mxtrace big1 // => x _; rewrite !mxE.
  by case: (eqVneq x i) => [->|_]; rewrite /= ?andbF addr0.
have all_sc X : span rc gens X -> exists c, dag (tagged P) *m X *m tagged P = c%:M.
  case=> f ->; have [c hc] := fin_all_exists (fun k : 'I_(size gens) => sc tz _ (nth_In 0 (ltn_ord k))).
  exists (\sum_(k < size gens) real_complex F (f k) * c k); rewrite /comb mulmx_sumr mulmx_suml raddf_sum; apply: eq_bigr => k _.
  by rewrite -scalemxAr -scalemxAl hc scale_scalar_mx.
have /all_sc [c ec] : span rc gens (T L) by apply/(bas.2 _); exists L.
have : T (V *m dag V *m L *m (V *m dag V)) = c *: T (V *m dag V).
  rewrite -!tensM // -PV -!mulmxA [dag (tagged P) *m (T L *m _)]mulmxA [dag (tagged P) *m T L *m _]mulmxA ec.
  by rewrite mul_scalar_mx -scalemxAr.
rewrite -tensZ // => /(tens_inj oE n0) /(congr1 (fun X => dag V *m X *m V)).
have -> : dag V *m (V *m dag V *m L *m (V *m dag V)) *m V = (dag V *m V) *m (dag V *m V) *m D *m (dag V *m V) *m (dag V *m V).
  by rewrite /L !mulmxA.
have -> : dag V *m (c *: (V *m dag V)) *m V = c *: ((dag V *m V) *m (dag V *m V)) by rewrite -scalemxAr -scalemxAl !mulmxA.
rewrite VV !mul1mx !mulmx1.
move=> /matrixP /(_ i j)/eqP; rewrite !mxE !eqxx /= mulr0 ?addr0.
by rewrite oner_eq0.
Qed.

Lemma cabs0 : @cabs F 0 = 0. Proof. by rewrite /cabs /= expr0n addr0 sqrtr0. Qed.
Lemma small0 m : all_small atol (0 : 'M[C]_m).
Proof. by apply/forallP => x; apply/forallP => y; rewrite mxE cabs0. Qed.
Lemma small_exact m (M : 'M[C]_m) : atol = 0 -> all_small atol M -> M = 0.
Proof.
move=> az /forallP h; apply/matrixP => x y; have /forallP /(_ y) := h x; rewrite az mxE => le.
have [_ _ z _ _ _] := is_norm_complex F; apply: z; apply/eqP; by rewrite eq_le le sqrtr_ge0.
Qed.

(* one block of the second stage *)
Lemma fixP (v0 v : 'cV[C]_d) (W0 W : 'M[C]_n) : dag v0 *m v0 = 1%:M -> dag v *m v = 1%:M ->
  W0 *m dag W0 = 1%:M -> W *m dag W = 1%:M ->
  match sun_fix atol svd gens (EV E v0 *m W0) (EV E v *m W) with
  | Ok P' => exists2 c : C, c * conjc c = 1 & P' = EV E (c *: v) *m W0
  | Err e => e = ValueError /\ (atol = 0 -> dag v0 *m v = 0 -> False)
  end.
Proof.
move=> nv0 nv u0 u; rewrite /sun_fix; set Bs := map _ gens.
have form L : dag (EV E v0 *m W0) *m T L *m (EV E v *m W) = ((dag v0 *m L *m v) 0 0) *: (dag W0 *m W).
  rewrite dag_mul -[_ *m T L]mulmxA mulmxA -[dag W0 *m _ *m EV E v]mulmxA (EV_form oE).
  by rewrite mul_mx_scalar -scalemxAl.
case eB : [seq B <- Bs | ~~ all_small atol B] => [|B s].
  have sB B : B \in Bs -> all_small atol B.
    by move=> iB; apply/negPn/negP => ns; have : B \in [seq B <- Bs | ~~ all_small atol B] by [rewrite mem_filter ns]; rewrite eB.
  split=> // az z; pose L := v0 *m dag v + v *m dag v0.
  have dL : dag L = L by rewrite /L dagD !dag_mul !dagK addrC.
  have z' : dag v *m v0 = 0 by rewrite -[LHS]dagK dag_mul dagK z dag0.
  have tL : \tr L = 0 by rewrite /L mxtraceD mxtrace_mulC [X in _ + X]mxtrace_mulC z z' !mxtrace0 addr0.
  have [f fE] : span rc gens (T L) by apply/(bas.2 _); exists L.
  have : dag (EV E v0 *m W0) *m T L *m (EV E v *m W) = 0.
    rewrite fE /comb mulmx_sumr mulmx_suml big1 // => k _; rewrite -scalemxAr -scalemxAl.
    have : dag (EV E v0 *m W0) *m gens`_k *m (EV E v *m W) \in Bs by apply/mapP; exists gens`_k => //; apply: mem_nth.
    move=> inB; apply/eqP; rewrite scaler_eq0; apply/orP; right; apply/eqP; apply: small_exact => //; exact: sB.
  rewrite form /L mulmxDr mulmxDl !mulmxA nv0 mul1mx nv z !mul0mx addr0 mxE eqxx scale1r => e.
  have : W0 *m (dag W0 *m W) *m dag W = 1%:M by rewrite !mulmxA u0 mul1mx u.
  rewrite e mulmx0 mul0mx => /esym/matrixP /(_ (Ordinal n0) (Ordinal n0))/eqP.
  by rewrite !mxE eqxx oner_eq0.
have : B \in [seq B <- Bs | ~~ all_small atol B] by rewrite eB mem_head.
rewrite mem_filter => /andP[ns /mapP[g /In_mem gin BE]]; have [_ [L gL]] := gen_form gin.
have BQ : B = ((dag v0 *m L *m v) 0 0) *: (dag W0 *m W) by rewrite BE gL form.
move: (_ 0 0) BQ => c BQ; set Q := dag W0 *m W in BQ.
have c0 : c != 0 by apply: contra ns => /eqP z; rewrite BQ z scale0r small0.
have QQ : Q *m dag Q = 1%:M.
  by rewrite /Q dag_mul dagK mulmxA -[dag W0 *m W *m dag W]mulmxA u mulmx1 (unitaryC u0).
have [sv sP] := svdP B; case: (svd B) sP => x y /= sP; rewrite BQ in sP.
have nc0 : `|c| != 0 by rewrite normr_eq0.
exists (conjc (c / `|c|)); first by rewrite conjcK mulrC -sqr_normc normf_div normr_id divff ?expr1n.
rewrite (polar c0 QQ sP) dagZ EVZ -scalemxAr -scalemxAl; congr (_ *: _).
by rewrite /Q dag_mul dagK mulmxA -[EV E v *m W *m _]mulmxA u mulmx1.
Qed.

(* what the second stage is applied to *)
Lemma assemble s (W0 : 'M[C]_n) : dag W0 *m W0 = 1%:M -> W0 *m dag W0 = 1%:M ->
  (forall Q, List.In Q s -> exists2 v, dag v *m v = 1%:M & Q = EV E v *m W0) -> \sum_(Q <- s) Q *m dag Q = 1%:M ->
  size s = d /\ [/\ orthoE (fun a : 'I_(size s) => s`_a), completeE (fun a : 'I_(size s) => s`_a) &
     is_basis rc gens (fun X => exists2 L, dag L = L /\ \tr L = 0 & X = tens (fun a : 'I_(size s) => s`_a) L)].
Proof.
move=> W1 W2 h sm; have {}sm : \sum_(a < size s) s`_a *m dag s`_a = 1%:M by rewrite -sm (big_nth 0) big_mkord.
have h' (a : 'I_(size s)) : exists v, dag v *m v = 1%:M /\ s`_a = EV E v *m W0.
  by have [v ? ?] := h _ (nth_In 0 (ltn_ord a)); exists v.
have [v hv] := fin_all_exists h'.
pose V : 'M[C]_(d, size s) := \matrix_(b, a) v a b 0.
have out (a b : 'I_(size s)) : s`_a *m dag s`_b = EV E (v a) *m dag (EV E (v b)).
  by rewrite (hv a).2 (hv b).2 dag_mul mulmxA -[_ *m W0 *m _]mulmxA W2 mulmx1.
have VV : V *m dag V = 1%:M.
  apply: (tens_inj oE n0); rewrite tens1 // -sm.
  have -> : V *m dag V = \sum_a v a *m dag (v a).
    by apply/matrixP => x y; rewrite summxE mxE; apply: eq_bigr => a _; rewrite !mxE big_ord1 !mxE.
  by rewrite tens_sum //; apply: eq_bigr => a _; rewrite -EV_out out.
have cV a b : (dag V *m V) a b = (dag (v a) *m v b) 0 0 by rewrite !mxE; apply: eq_bigr => x _; rewrite !mxE.
have sd : size s = d.
  apply/eqP; rewrite -(eqr_nat [numDomainType of C]) -(mxtrace1 _ d) -VV mxtrace_mulC /mxtrace.
  rewrite (eq_bigr (fun=> 1)) => [|a _]; last by rewrite cV (hv a).1 mxE eqxx.
  by rewrite sumr_const card_ord.
have VV' : dag V *m V = 1%:M by apply: square_inv VV.
have tE L : tens (fun a : 'I_(size s) => s`_a) L = T (V *m L *m dag V).
  have -> : V *m L *m dag V = \sum_a \sum_b L a b *: (v a *m dag (v b)).
    apply/matrixP => x y; rewrite summxE mxE (eq_bigr (fun b => \sum_a L a b * (v a x 0 * conjc (v b y 0)))) => [|b _].
      rewrite exchange_big; apply: eq_bigr => a _; rewrite summxE; apply: eq_bigr => b _.
      by rewrite !mxE big_ord1 !mxE.
    rewrite !mxE mulr_suml; apply: eq_bigr => a _; rewrite !mxE mulrA [L a b * _]mulrC //.
  rewrite tens_sum //; apply: eq_bigr => a _; rewrite tens_sum //; apply: eq_bigr => b _.
  by rewrite tensZ // -EV_out out.
split=> //; split.
- move=> a b; rewrite (hv a).2 (hv b).2 dag_mul mulmxA -[dag W0 *m _ *m EV E _]mulmxA (EV_dot oE) -cV VV'.
  by rewrite mul_mx_scalar -scalemxAl W1 mxE scalemx1.
- exact: sm.
apply: eq_basis bas => X; split=> [[L [dL tL] ->]|[L [dL tL] ->]].
  exists (dag V *m L *m V); last by rewrite tE !mulmxA VV mul1mx -mulmxA VV mulmx1.
  by rewrite !dag_mul dagK dL mulmxA -mulmxA mxtrace_mulC -mulmxA VV mulmx1.
exists (V *m L *m dag V); last by rewrite tE.
by rewrite !dag_mul dagK dL mulmxA mxtrace_mulC mulmxA VV' mul1mx.
Qed.
End Loops.

Lemma isqrt_sq d : isqrt (d * d) = d.
Proof.
rewrite /isqrt; set p := (fun k => _); have le : (d <= d * d)%N by case: d {p} => // d; rewrite leq_pmulr.
have -> : iota 0 (d * d).+1 = iota 0 d ++ iota d (d * d - d).+1 by rewrite -[X in _ ++ iota X _]add0n -iotaD addnS subnKC.
rewrite find_cat; have -> : has p (iota 0 d) = false.
  apply/hasP => -[k]; rewrite mem_iota /p /= add0n => kd; rewrite leqNgt.
  by case: k kd => [|k] kd; rewrite ?muln_gt0 ?kd ?(leq_ltn_trans _ kd) // ltn_mul.
by rewrite size_iota /= /p leqnn addn0.
Qed.

Section C97.
Variables (F : rcfType) (tol atol : F).
Local Notation C := F[i].
Local Notation rc := [rmorphism of real_complex F].
Variables (eigh : forall n, 'M[C]_n -> seq F * 'M[C]_n) (svd : forall n, 'M[C]_n -> 'M[C]_n * 'M[C]_n).
Hypotheses (t0 : 0 <= tol) (a0 : 0 <= atol) (eighP : eigh_contract eigh) (svdP : svd_contract svd).

(* In the orthonormal basis E, consisting of d groups of n vectors, the real combinations of the generators, which
   are independent, are the matrices L (x) 1 with L Hermitian and traceless. *)
Definition su_rep N d n (E : 'I_d -> 'M[C]_(N, n)) (gens : seq 'M[C]_N) : Prop :=
  [/\ orthoE E, completeE E & is_basis rc gens (fun X => exists2 L, dag L = L /\ \tr L = 0 & X = tens E L)].
Definition groups N (S : stack F N) : 'I_(size (tagged S)) -> 'M[C]_(N, tag S) := fun a => (tagged S)`_a.
Arguments groups {N} S a.

Lemma tens_basis N d n (E : 'I_d -> 'M[C]_(N, n)) : orthoE E -> completeE E -> (0 < n)%N ->
  is_basis rc [seq tens E X | X <- matrix_basis d true false false] (fun X => exists2 L, dag L = L /\ \tr L = 0 & X = tens E L).
Proof.
move=> oE cE n0.
have cm c := @comb_map _ _ rc _ _ (tens E) (matrix_basis d true false false) c (tens0 oE cE) (tensD oE cE) (fun a v => tensZ oE cE (rc a) v).
have [iB hB] := C23_matrix_basis F d true false false.
split=> [c|X].
  by rewrite cm size_map => e; apply: iB; apply: (tens_inj oE n0); rewrite e tens0.
split=> [[L [dL tL] ->]|[c ->]].
  have /hB [c ->] : [/\ dagger L = L, false -> forall a b, complex.Im (L a b) = 0 & true -> \tr L = 0] by split=> //; rewrite -[RHS]dL; apply/matrixP => x y; rewrite !mxE.
  by exists c; rewrite cm.
have /hB [e _ t] : span rc (matrix_basis d true false false) (comb rc (matrix_basis d true false false) c) by exists c.
by rewrite cm; eexists; [split; [|exact: t]|]; [rewrite -[RHS]e; apply/matrixP => x y; rewrite !mxE|].
Qed.
Lemma rep_size N d n (E : 'I_d -> 'M[C]_(N, n)) gens : (0 < N)%N -> su_rep E gens ->
  [/\ N = (n * d)%N, (0 < n)%N, (0 < d)%N & (size gens).+1 = (d * d)%N].
Proof.
move=> N0 [oE cE b]; have Nnd := tens_size oE cE; have /andP[n0 d0] : (0 < n)%N && (0 < d)%N by rewrite -muln_gt0 -Nnd.
split=> //.
have b' := tens_basis oE cE n0.
by rewrite (basis_size b b') size_map size_matrix_basis // -mulnn subn1 prednK // muln_gt0 d0.
Qed.

Lemma sunP N d n (E : 'I_d -> 'M[C]_(N, n)) gens : (0 < N)%N -> su_rep E gens ->
  match symmetry_adapted_sun tol atol eigh svd gens with
  | Ok Ps => [/\ size (tagged Ps) = d, tag Ps = n & su_rep (groups Ps) gens]
  | Err e => e = ValueError /\ (tol = 0 -> atol = 0 -> gens = [::])
  end.
Proof.
move=> N0 R; have [Nnd n0 d0 sg] := rep_size N0 R; have [oE cE b] := R.
have nE : (N %/ d)%N = n by rewrite {1}Nnd mulnK.
have dv : (d %| N)%N by rewrite {1}Nnd dvdn_mull.
rewrite /symmetry_adapted_sun sg isqrt_sq eqxx dv /= nE; have [e1|n1] := eqVneq n 1%N.
  clear nE n0 Nnd R; move: E oE cE b; rewrite e1 => E oE cE b; rewrite /groups /=.
  have sm : \sum_(Q <- [seq col i 1%:M | i <- enum 'I_N]) Q *m dag Q = 1%:M :> 'M[C]_N.
    rewrite big_map big_enum /=; apply/matrixP => x y; rewrite summxE mxE (bigD1 x) //= big1 => [|z zx].
      by rewrite addr0 mxE big_ord1 dagE !mxE eqxx mul1r eq_sym rmorph_nat.
    by rewrite mxE big_ord1 dagE !mxE eq_sym (negPf zx) mul0r.
  have hQ Q : List.In Q [seq col i 1%:M | i <- enum 'I_N] -> exists2 v, dag v *m v = 1%:M & Q = EV E v *m 1%:M.
    case/In_map_iff=> i _ ->; set P : 'M[C]_(N, 1) := col i 1%:M.
    pose v : 'cV[C]_d := \col_a (dag (E a) *m P) 0 0.
    have PE : P = EV E v.
      rewrite -[P]mul1mx -cE mulmx_suml; apply: eq_bigr => a _; rewrite mxE -mulmxA.
      by rewrite {1}[dag (E a) *m P]mx11_scalar mul_mx_scalar.
    exists v; last by rewrite mulmx1.
    have := EV_dot oE v v; rewrite -PE => /matrixP /(_ 0 0) e; rewrite [LHS]mx11_scalar; congr _%:M.
    move: e; rewrite [RHS]mxE eqxx mulr1n => <-; rewrite mxE (bigD1 i) //= dagE !mxE eqxx rmorph1 mul1r big1 ?addr0 // => k ki.
    by rewrite !mxE (negPf ki) mulr0.
  have u1 : dag (1%:M : 'M[C]_1) *m 1%:M = 1%:M by rewrite dag1 mulmx1.
  have u2 : (1%:M : 'M[C]_1) *m dag 1%:M = 1%:M by rewrite dag1 mulmx1.
  by have [h1 [h2 h3 h4]] := assemble oE cE isT b u1 u2 hQ sm.
have g1 : psum (([:: mkr 1%:M], [::]) : sun_state F N n) = 1%:M by rewrite /psum /= big_seq1 big_nil addr0 /pr /= dag1 mulmx1.
have := split_loop t0 eighP oE cE n0 (gen_form b) (done := [::]) (erefl gens) (st := ([:: mkr 1%:M], [::])) _ _ g1.
case: (sun_split _ _ _ _) => [s|e] /= h; last first.
  have [] := h.
  - by move=> P [<- //|//]; split=> //=; [exact: good1].
  - by [].
  move=> -> h'; split=> // tz az; case: (gens) h' b => // g gs h' b.
  have [] := h' _ => // P oP []; exact: (never oE cE n0 b tz oP).
have [] := h.
- by move=> P [<- //|//]; split=> //=; [exact: good1].
- by [].
move=> {h} gs sm; case: s gs sm => [|P0 rest] gs sm.
  move: sm; rewrite big_nil => /esym/matrixP /(_ (Ordinal N0) (Ordinal N0))/eqP; by rewrite !mxE eqxx oner_eq0.
have [v0 [W0 [nv0 u0 u0' P0E]]] := good_split oE cE n0 (gs P0 (or_introl erefl)).
have fx P : List.In P rest -> match sun_fix atol svd gens P0 P with
  | Ok P' => (exists2 v, dag v *m v = 1%:M & P' = EV E v *m W0) /\ P' *m dag P' = P *m dag P
  | Err e => e = ValueError /\ (atol = 0 -> False) end.
  move=> Pr; have gP := gs P (or_intror Pr); have [v [W [nv u u' PE]]] := good_split oE cE n0 gP.
  have := fixP a0 svdP oE n0 b nv0 nv u0 u; rewrite -P0E -PE; case: (sun_fix _ _ _ _ _) => [P' [c cc ->]|e [-> h]].
    split; first by exists (c *: v); rewrite // dagZ -scalemxAl -scalemxAr scalerA mulrC cc scale1r.
    rewrite EVZ PE !dag_mul dagZ -!scalemxAl -!scalemxAr scalerA mulrC [conjc c * c]mulrC cc scale1r.
    by rewrite !mulmxA -[_ *m W0 *m _]mulmxA u0 mulmx1 -[_ *m W *m _]mulmxA u mulmx1.
  split=> // az; apply: h => //; have [s2 [s3 er]] := List.in_split _ _ Pr.
  have {}er : rest = (s2 ++ P :: s3)%SEQ := er.
  have un : is_unitary (map (@mkr F N n) ([::] ++ P0 :: s2 ++ P :: s3)).
    split=> [Q /In_map_iff[Q' Qin ->]|]; last by rewrite big_map /= -er.
    by split=> //=; have [] := gs Q' => //; rewrite er.
  rewrite map_cat /= map_cat /= in un; have := C77_orthogonal (s1 := [::]) un; rewrite /= P0E PE => z.
  have : W0 *m (dag (EV E v0 *m W0) *m (EV E v *m W)) *m dag W = 0 by rewrite z mulmx0 mul0mx.
  rewrite dag_mul !mulmxA u0 mul1mx -mulmxA u mulmx1 (EV_dot oE) => /matrixP /(_ (Ordinal n0) (Ordinal n0)).
  by rewrite !mxE eqxx mulr1n => e0; apply/matrixP => x y; rewrite !ord1 [RHS]mxE -e0 mxE.
have [ok|[P [e [Pr eP ->]]]] := map_resE (sun_fix atol svd gens P0) (0 : 'M[C]_(N, n)) rest; last first.
  by have := fx P Pr; rewrite eP => -[-> h]; split=> // _ /h.
rewrite (map_resP ok) /=; set f := fun x => _.
have fE P : List.In P rest -> (exists2 v, dag v *m v = 1%:M & f P = EV E v *m W0) /\ f P *m dag (f P) = P *m dag P.
  by move=> Pr; have := fx P Pr; rewrite /f (ok P Pr).
have hQ Q : List.In Q (P0 :: map f rest) -> exists2 v, dag v *m v = 1%:M & Q = EV E v *m W0.
  by case=> [<-|/In_map_iff[P Pr ->]]; [exists v0|have [] := fE P Pr].
have sm' : \sum_(Q <- P0 :: map f rest) Q *m dag Q = 1%:M.
  rewrite -sm !big_cons; congr (_ + _); rewrite big_map; move: fE; clear; elim: rest => [|P s IH] h; first by rewrite !big_nil.
  by rewrite !big_cons (h P (or_introl erefl)).2 IH // => Q Qs; apply: h; right.
by have [h1 [h2 h3 h4]] := assemble oE cE n0 b u0' u0 hQ sm'.
Qed.

(* C97: what is returned is a symmetry adapted basis *)
Theorem C97_sound N d n (E : 'I_d -> 'M[C]_(N, n)) gens Ps : (0 < N)%N -> su_rep E gens ->
  symmetry_adapted_sun tol atol eigh svd gens = Ok Ps ->
  [/\ size (tagged Ps) = d, tag Ps = n & su_rep (groups Ps) gens].
Proof. by move=> N0 R e; have := sunP N0 R; rewrite e. Qed.
(* nothing else than ValueError is raised for such generators *)
Theorem C97_error N d n (E : 'I_d -> 'M[C]_(N, n)) gens e : (0 < N)%N -> su_rep E gens ->
  symmetry_adapted_sun tol atol eigh svd gens = Err e -> e = ValueError.
Proof. by move=> N0 R er; have := sunP N0 R; rewrite er => -[]. Qed.
(* with exact comparisons a basis is always found *)
Theorem C97_found N d n (E : 'I_d -> 'M[C]_(N, n)) gens : (0 < N)%N -> su_rep E gens -> gens <> [::] -> tol = 0 -> atol = 0 ->
  exists Ps, symmetry_adapted_sun tol atol eigh svd gens = Ok Ps.
Proof.
move=> N0 R ne tz az; have := sunP N0 R; case: (symmetry_adapted_sun _ _ _ _ _) => [Ps _|e [_ /(_ tz az)]] //.
by exists Ps.
Qed.

(* The docstring promises this for every Hermitian L; it is false for the identity. *)
Theorem C97_doc_refuted N d n (E : 'I_d -> 'M[C]_(N, n)) gens : (0 < N)%N -> su_rep E gens ->
  dag (1%:M : 'M[C]_d) = 1%:M /\ ~ span rc gens (tens E 1%:M).
Proof.
move=> N0 R; have [Nnd n0 d0 _] := rep_size N0 R; have [oE cE b] := R; split; first exact: dag1.
move=> /(b.2 _).2 [L [_ tL]] /(congr1 mxtrace); rewrite !tens_tr // tL mulr0 mxtrace1 -natrM => /eqP.
by rewrite pnatr_eq0 -Nnd eqn0Ngt N0.
Qed.
(* without generators, the case d = 1, the loop has nothing to do and fails *)
Theorem C97_empty N : (1 < N)%N -> symmetry_adapted_sun tol atol eigh svd ([::] : seq 'M[C]_N) = Err ValueError.
Proof.
move=> N1; have i1 : isqrt 1 = 1%N by exact: (isqrt_sq 1).
by rewrite /symmetry_adapted_sun /= i1 /= dvd1n /= divn1 gtn_eqF.
Qed.

(* two copies of su(2) on four states *)
Definition E22 (a : 'I_2) : 'M[C]_(4, 2) := \matrix_(x, y) ((val x == val a * 2 + val y)%N)%:R.
Definition gens22 : seq 'M[C]_4 := [seq tens E22 X | X <- matrix_basis 2 true false false].
Lemma E22_ortho : orthoE E22.
Proof.
move=> a b; apply/matrixP => x y; rewrite mxE !big_ord_recl big_ord0 !dagE !mxE !(rmorph_nat (conjc_rmorphism F)).
by case: a b x y => [[|[|//]] ?] [[|[|//]] ?] [[|[|//]] ?] [[|[|//]] ?] /=;
  rewrite ?mulr0 ?mul0r ?mulr1 ?addr0 ?add0r ?mulr1n ?mulr0n ?mul0rn.
Qed.
Lemma E22_complete : completeE E22.
Proof.
rewrite /completeE !big_ord_recl big_ord0; apply/matrixP => x y; rewrite !mxE !big_ord_recl !big_ord0 !dagE !mxE !(rmorph_nat (conjc_rmorphism F)).
by case: x y => [[|[|[|[|//]]]] ?] [[|[|[|[|//]]]] ?] /=;
  rewrite ?mulr0 ?mul0r ?mulr1 ?addr0 ?add0r ?mulr1n ?mulr0n ?mul0rn.
Qed.
Example C97_example : su_rep E22 gens22 /\ (tol = 0 -> atol = 0 ->
  exists Ps, [/\ symmetry_adapted_sun tol atol eigh svd gens22 = Ok Ps, size (tagged Ps) = 2%N, tag Ps = 2%N & su_rep (groups Ps) gens22]).
Proof.
have R : su_rep E22 gens22.
  split; [exact: E22_ortho|exact: E22_complete|exact: tens_basis E22_ortho E22_complete isT].
split=> // tz az; have ne : gens22 <> [::] by move/(congr1 size); rewrite size_map size_matrix_basis.
have [Ps e] := C97_found (N := 4) isT R ne tz az; exists Ps; split=> //; by have [] := C97_sound (N := 4) isT R e.
Qed.
End C97.
