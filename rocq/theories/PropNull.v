(* Null spaces: C26, C27, C28. *)
From mathcomp Require Import all_ssreflect all_algebra.
From mathcomp Require Import complex.
From Verif Require Import Prelude LinSpan NullSpec Tolerance Star Nullspace.

Set Implicit Arguments.
Unset Strict Implicit.
Unset Printing Implicit Defensive.
Import Order.Theory GRing.Theory Num.Theory.
Local Open Scope ring_scope.

Lemma mask_map_enum T n (p : 'I_n -> bool) (f : 'I_n -> T) :
  mask [seq p i | i <- enum 'I_n] [seq f i | i <- enum 'I_n] = [seq f i | i <- enum 'I_n & p i].
Proof. by rewrite filter_mask map_mask. Qed.

Section Orth.
Variables (F : rcfType) (K : fieldType) (st : star F K) (n : nat) (W : 'M[K]_n).
Hypothesis UW : unitary st W.
Local Notation cj := (cj st).
Local Notation id_ := [rmorphism of idfun].

(* coordinates of a row vector with respect to orthonormal rows *)
Definition coo (v : 'rV[K]_n) (i : 'I_n) : K := (v *m adj st W) 0 i.

Lemma coo_row i j : coo (row i W) j = (i == j)%:R.
Proof. by rewrite /coo -row_mul UW !mxE. Qed.
Lemma coo_expand v : v = \sum_i coo v i *: row i W.
Proof. by rewrite -mulmx_sum_row -mulmxA (unitaryC UW) mulmx1. Qed.

Lemma rows_sub_basis (p : 'I_n -> bool) :
  is_basis id_ [seq row i W | i <- enum 'I_n & p i] (fun v => forall i, ~~ p i -> coo v i = 0).
Proof.
have cE (c : 'I_n -> K) t : coo (\sum_(u <- [seq i <- enum 'I_n | p i]) id_ (c u) *: row u W) t = if p t then c t else 0.
  have E : coo (\sum_(u <- [seq i <- enum 'I_n | p i]) id_ (c u) *: row u W) t =
           \sum_(u <- [seq i <- enum 'I_n | p i]) c u * coo (row u W) t.
    by rewrite /coo mulmx_suml summxE; apply: eq_bigr => u _; rewrite -scalemxAl mxE.
  rewrite E big_filter big_enum_cond; case: ifP => [pt|/negbT npt].
    by rewrite (bigD1 t) //= coo_row eqxx mulr1 big1 ?addr0 // => u /andP [_ /negPf ut]; rewrite coo_row ut mulr0.
  by rewrite big1 // => u pu; rewrite coo_row; case: eqP => [e|_]; [rewrite e (negPf npt) in pu|rewrite mulr0].
apply: (@dual_basis _ _ _ _ _ _ _ (fun i v => coo v i)) => [|t c|v H|c i pi].
- by apply: filter_uniq; apply: enum_uniq.
- by rewrite cE mem_filter => /andP [->].
- rewrite big_filter big_enum_cond {1}(coo_expand v) (bigID p) /= [X in _ + X]big1 ?addr0 //.
  by move=> i /H ->; rewrite scale0r.
- by rewrite cE (negPf pi).
Qed.

Lemma rnorm2_coo v : rnorm2 st v = \sum_i nsq st (coo v i).
Proof.
rewrite rnorm2_tr -(@norm2_unitary _ _ st _ _ (map_mx cj W) v^T); last first.
  exact/unitaryC/unitary_map.
apply: eq_bigr => i _; congr (nsq st _); rewrite /coo !mxE; apply: eq_bigr => j _.
by rewrite !mxE mulrC.
Qed.
End Orth.

Section Dense.
Variables (F : rcfType) (K : fieldType) (st : star F K) (m n : nat).
Variables (A : 'M[K]_(m, n)) (u : 'M[K]_m) (s : seq F) (vh : 'M[K]_n).
Hypothesis H : is_svd st A u s vh.
Local Notation cj := (cj st).
Local Notation emb := (emb st).
Local Notation id_ := [rmorphism of idfun].
Let W := map_mx cj vh.

Lemma uW : unitary st W. Proof. by case: H => _ h _ _ _; apply: unitary_map. Qed.
Lemma s_ge0 i : 0 <= s`_i.
Proof.
case: H => _ _ _ /allP h _; case: (ltnP i (size s)) => [li|?]; first by apply: h; apply: mem_nth.
by rewrite nth_default.
Qed.
Lemma size_s : (size s <= n)%N. Proof. by case: H => _ _ -> _ _; apply: geq_minr. Qed.
Lemma s_big i : (m <= i)%N -> s`_i = 0.
Proof. by case: H => _ _ E _ _ h; rewrite nth_default // E; apply: leq_trans (geq_minl _ _) h. Qed.

Lemma flagsE atol : 0 <= atol -> svd_flags n s atol = [seq s`_(val i) <= atol | i <- enum 'I_n].
Proof.
move=> a0; apply: (@eq_from_nth _ true) => [|i].
  by rewrite size_cat size_map size_nseq subnKC ?size_s // size_map size_enum_ord.
rewrite size_cat size_map size_nseq subnKC ?size_s // => li.
rewrite (nth_map (Ordinal li)) ?size_enum_ord //= nth_enum_ord // nth_cat size_map.
case: ltnP => ls; last by rewrite nth_nseq if_same nth_default.
by rewrite (nth_map 0) // /np_isclose subr0 normr0 mulr0 addr0 ger0_norm // s_ge0.
Qed.

Lemma denseE atol : 0 <= atol -> nullspace_dense st s vh atol =
  ([seq row i W | i <- enum 'I_n & s`_(val i) <= atol], [seq row i W | i <- enum 'I_n & ~~ (s`_(val i) <= atol)]).
Proof.
move=> a0; rewrite /nullspace_dense flagsE // -map_comp /rows.
by rewrite mask_map_enum (mask_map_enum (fun i : 'I_n => ~~ (s`_(val i) <= atol))).
Qed.

Lemma norm2_A v : norm2 st (A *m v^T) = \sum_(i < n) s`_i ^+ 2 * nsq st (coo st W v i).
Proof.
case: H => Uu Uv Es _ ->; rewrite -!mulmxA norm2_unitary; last exact: unitaryC.
set y := vh *m v^T.
have yE i : y i 0 = coo st W v i.
  by rewrite /coo !mxE; apply: eq_bigr => j _; rewrite !mxE cjK mulrC.
have E (i : 'I_m) : (diag_rect st m n s *m y) i 0 = emb s`_i * (if insub (val i) is Some j then y j 0 else 0).
  rewrite mxE; case: insubP => [j lj ej|ni].
    rewrite (bigD1 j) //= mxE ej eqxx big1 ?addr0 // => k kj; rewrite mxE -ej.
    by case: eqP => [e|_]; [case/eqP: kj; apply: val_inj|rewrite mul0r].
  rewrite mulr0 big1 // => k _; rewrite mxE; case: eqP => [e|_]; last by rewrite mul0r.
  by case/negP: ni; rewrite /= e ltn_ord.
pose G k := s`_k ^+ 2 * nsq st (if insub k : option 'I_n is Some j then y j 0 else 0).
have G0 k : (minn m n <= k)%N -> G k = 0.
  rewrite /G geq_min => /orP [/s_big ->|nk]; first by rewrite expr0n mul0r.
  by rewrite insubN -?leqNgt // nsq0 mulr0.
have W0 d : (minn m n <= d)%N -> (d <= maxn m n)%N -> \sum_(k < d) G k = \sum_(k < maxn m n) G k.
  move=> h1 h2; rewrite (big_ord_widen _ G h2) [RHS](bigID (fun k : 'I__ => (k < d)%N)) /=.
  by rewrite [X in _ = _ + X]big1 ?addr0 // => k; rewrite -leqNgt => h; apply: G0; apply: leq_trans h.
transitivity (\sum_(k < m) G k).
  by apply: eq_bigr => k _; rewrite E nsqM nsq_emb.
rewrite W0 ?geq_minl ?leq_maxl // -(W0 n) ?geq_minr ?leq_maxr //.
by apply: eq_bigr => k _; rewrite /G valK yE.
Qed.

(* C26: the two families are orthonormal, together a basis, and A is at most atol
   on the span of the first and more than atol on the span of the second. *)
Theorem C26_orthonormal atol : 0 <= atol ->
  let B := (nullspace_dense st s vh atol).1 ++ (nullspace_dense st s vh atol).2 in
  [/\ size B = n, forall i j, (i < n)%N -> (j < n)%N -> rdot st B`_i B`_j = (i == j)%:R &
      is_basis id_ B (fun=> True)].
Proof.
move=> a0; rewrite denseE //= -map_cat.
set p := fun i : 'I_n => s`_(val i) <= atol.
set t := (_ ++ _).
have pt : perm_eq t (enum 'I_n) by exact: (permEl (perm_filterC p (enum 'I_n))).
have st' : size t = n by rewrite (perm_size pt) size_enum_ord.
have ut : uniq t by rewrite (perm_uniq pt) enum_uniq.
split; first by rewrite size_map.
  move=> i j li lj; have n0 := leq_ltn_trans (leq0n i) li.
  rewrite !(nth_map (Ordinal n0)) ?st' // rdotE.
  have -> : row (nth (Ordinal n0) t i) W *m adj st (row (nth (Ordinal n0) t j) W) =
            row (nth (Ordinal n0) t i) (col (nth (Ordinal n0) t j) (W *m adj st W)).
    by apply/rowP => k; rewrite !mxE; apply: eq_bigr => l _; rewrite !mxE.
  by rewrite uW !mxE nth_uniq ?st'.
have B0 := rows_sub_basis uW (fun=> true).
rewrite filter_predT in B0.
apply: (@dual_basis _ _ _ _ _ _ _ (fun i v => coo st W v i)) => // [i c _|v _].
  rewrite /coo mulmx_suml summxE (perm_big _ pt) /= big_enum (bigD1 i) //=.
  rewrite -scalemxAl mxE -/(coo st W (row i W) i) coo_row ?eqxx ?mulr1; last exact: uW.
  rewrite big1 ?addr0 // => j ji; rewrite -scalemxAl mxE -/(coo st W (row j W) i) coo_row; last exact: uW.
  by rewrite (negPf ji) mulr0.
by rewrite (perm_big _ pt) /= big_enum {1}(coo_expand uW v).
Qed.

Theorem C26_small atol v : 0 <= atol -> span id_ (nullspace_dense st s vh atol).1 v ->
  norm2 st (A *m v^T) <= atol ^+ 2 * rnorm2 st v.
Proof.
move=> a0; rewrite denseE //= => /(proj2 (rows_sub_basis uW _) v) Hv.
rewrite norm2_A (rnorm2_coo uW) mulr_sumr; apply: ler_sum => i _.
case: (boolP (s`_i <= atol)) => [h|/Hv ->]; last by rewrite nsq0 !mulr0.
by apply: ler_wpmul2r; rewrite ?nsq_ge0 // ler_expn2r // nnegrE // s_ge0.
Qed.

Theorem C26_large atol v : 0 <= atol -> v != 0 -> span id_ (nullspace_dense st s vh atol).2 v ->
  atol ^+ 2 * rnorm2 st v < norm2 st (A *m v^T).
Proof.
move=> a0 v0; rewrite denseE //= => /(proj2 (rows_sub_basis uW _) v) Hv.
have [i ni] : exists i, coo st W v i != 0.
  apply/existsP; rewrite -negb_forall; apply: contra v0 => /forallP h; apply/eqP.
  by rewrite (coo_expand uW v) big1 // => i _; move/eqP: (h i) => ->; rewrite scale0r.
rewrite norm2_A (rnorm2_coo uW) mulr_sumr (bigD1 i) // [X in _ < X](bigD1 i) //=.
have L j : coo st W v j != 0 -> atol < s`_j.
  by rewrite ltNge => nj; apply: contra nj => h; rewrite Hv // h.
have g j : atol ^+ 2 * nsq st (coo st W v j) <= s`_j ^+ 2 * nsq st (coo st W v j).
  case: (eqVneq (coo st W v j) 0) => [->|/L h]; first by rewrite nsq0 !mulr0.
  by apply: ler_wpmul2r; [exact: nsq_ge0|rewrite ler_expn2r ?nnegrE ?s_ge0 // ltW].
apply: ltr_le_add; last by apply: ler_sum => j _; apply: g.
have h2 := L i ni.
have n0 : 0 < nsq st (coo st W v i) by rewrite lt_neqAle eq_sym nsq_eq0 ni nsq_ge0.
by rewrite ltr_pmul2r // ltr_expn2r // nnegrE s_ge0.
Qed.

(* when no non-zero singular value is within the tolerance the first family is a
   basis of the null space *)
Theorem C26_exact atol : 0 <= atol -> (forall i, s`_i <= atol -> s`_i = 0) ->
  is_basis id_ (nullspace_dense st s vh atol).1 (fun v => A *m v^T = 0).
Proof.
move=> a0 gap; rewrite denseE //=; apply: eq_basis (rows_sub_basis uW _) => v; split=> [Hv|E i].
  apply: (@norm2_eq0 _ _ st); rewrite norm2_A big1 // => i _.
  case: (boolP (s`_i <= atol)) => [/gap ->|/Hv ->]; first by rewrite expr0n mul0r.
  by rewrite nsq0 mulr0.
rewrite -ltNge => h; have := norm2_A v; rewrite E norm2_0 => /esym /eqP.
rewrite psumr_eq0 => [|j _]; last by rewrite mulr_ge0 ?sqr_ge0 ?nsq_ge0.
move=> /allP /(_ i (mem_index_enum i)); rewrite mulf_eq0 sqrf_eq0 nsq_eq0 => /orP [/eqP s0|/eqP //].
by move: h; rewrite s0 ltNge a0.
Qed.

(* C27: the complement spans the conjugates of the rows *)
Theorem C27_complement_conj atol : 0 <= atol -> (forall i, s`_i <= atol -> s`_i = 0) ->
  forall v, span id_ (nullspace_dense st s vh atol).2 v <-> exists w : 'rV_m, v = w *m map_mx cj A.
Proof.
move=> a0 gap v; rewrite denseE //=; set X := map _ _.
have [_ B] := rows_sub_basis uW (fun i : 'I_n => ~~ (s`_(val i) <= atol)).
have D0 : map_mx cj A = map_mx cj u *m diag_rect st m n s *m W.
  case: H => _ _ _ _ ->; rewrite !map_mxM; congr (_ *m _ *m _).
  by apply/matrixP => i j; rewrite !mxE; case: ifP; rewrite ?cj_emb ?rmorph0.
split=> [/B Hv|[w ->]].
  pose z : 'rV[K]_m := \row_k ((emb s`_k)^-1 * (if insub (val k) is Some j then coo st W v j else 0)).
  exists (z *m adj st (map_mx cj u)); rewrite D0 !mulmxA -(mulmxA z).
  have -> : adj st (map_mx cj u) *m map_mx cj u = 1%:M by case: H => /unitary_map /unitaryC.
  rewrite mulmx1 {1}(coo_expand uW v) mulmx_sum_row; apply: eq_bigr => i _; congr (_ *: _).
  rewrite mxE; case: (ltnP i m) => [im|mi]; last first.
    rewrite Hv ?negbK ?(s_big mi) // big1 // => k _; rewrite !mxE.
    by case: eqP => [e|_]; [rewrite e s_big // rmorph0 mulr0|rewrite mulr0].
  rewrite (bigD1 (Ordinal im)) //= !mxE eqxx valK big1 ?addr0 => [|k ki]; last first.
    by rewrite !mxE; case: eqP => [e|_]; [case/eqP: ki; apply: val_inj|rewrite mulr0].
  rewrite mulrAC; case: (eqVneq s`_i 0) => [e|ne]; first by rewrite Hv ?mulr0 // negbK e.
  by rewrite mulVf ?mul1r // fmorph_eq0.
apply/B => i; rewrite negbK => /gap s0.
rewrite D0 /coo !mulmxA -(mulmxA _ W) uW mulmx1 mxE big1 // => k _; rewrite [diag_rect _ _ _ _ _ _]mxE.
by case: eqP => [e|_]; rewrite ?mulr0 // e s0 rmorph0 mulr0.
Qed.
End Dense.

(* for real matrices this is the row span *)
Theorem C27_complement_real (F : rcfType) m n (A : 'M[F]_(m, n)) u s vh atol :
  is_svd (real_star F) A u s vh -> 0 <= atol -> (forall i, s`_i <= atol -> s`_i = 0) ->
  forall v, span [rmorphism of idfun] (nullspace_dense (real_star F) s vh atol).2 v <-> (v <= A)%MS.
Proof.
move=> H a0 gap v; rewrite (C27_complement_conj H a0 gap).
have -> : map_mx (cj (real_star F)) A = A by apply/matrixP => i j; rewrite mxE.
by split=> [[w ->]|/submxP [w ->]]; [apply: submxMl|exists w].
Qed.

(* but not for complex ones: A = (1, i), for every decomposition *)
Theorem C27_complement_refuted (F : rcfType) : exists A : 'M[F[i]]_(1, 2), forall u s vh atol,
  is_svd (complex_star F) A u s vh -> 0 <= atol -> (forall i, s`_i <= atol -> s`_i = 0) ->
  ~ span [rmorphism of idfun] (nullspace_dense (complex_star F) s vh atol).2 A.
Proof.
exists (\row_j (if j == 0 then 1 else 'i%C)) => u s vh atol H a0 gap /(C27_complement_conj H a0 gap) [w E].
have cE x : cj (complex_star F) x = conjc x by [].
have /rowP /(_ 0) := E; rewrite !mxE big_ord1 !mxE cE conjc1 mulr1 => e0.
have /rowP /(_ 1) := E; rewrite !mxE big_ord1 !mxE cE -e0 mul1r => /eqP.
by rewrite eq_complex /= eqxx /= -subr_eq0 opprK -mulr2n pnatr_eq0.
Qed.

(* A concrete decomposition: diag(2, 0) with unit singular vectors. *)
Example C26_example (F : rcfType) :
  is_svd (real_star F) (diag_rect (real_star F) 2 2 [:: 2%:R; 0]) 1%:M [:: 2%:R; 0] 1%:M /\
  nullspace_dense (real_star F) [:: 2%:R; 0] (1%:M : 'M_2) 1 = ([:: delta_mx 0 1], [:: delta_mx 0 0]).
Proof.
split; first by split; rewrite ?mul1mx ?mulmx1 //=; try exact: unitary1; rewrite ler0n lexx.
have E2 : enum 'I_2 = [:: ord0; ord_max] by apply: (inj_map val_inj); rewrite val_enum_ord.
rewrite /nullspace_dense /rows E2 /svd_flags /np_isclose /= !subr0 normr0 mul0r !addr0 ler01 ger0_norm ?ler0n //.
rewrite (ler_nat F 2 1) /=; congr ([:: _], [:: _]); apply/rowP => j; rewrite !mxE /=.
  by case: j => [[|[|j]] lj].
by case: j => [[|[|j]] lj].
Qed.
