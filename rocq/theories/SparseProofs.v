(* The sparse branch of nullspace: C28. *)
From mathcomp Require Import all_ssreflect all_algebra zify.
From mathcomp Require Import complex.
From Verif Require Import Prelude LinSpan NullSpec Tolerance Star Nullspace PropNull.

Set Implicit Arguments.
Unset Strict Implicit.
Unset Printing Implicit Defensive.
Import Order.Theory GRing.Theory Num.Theory.
Local Open Scope ring_scope.
Local Notation id_ := [rmorphism of idfun].

(* the length of a basis is the dimension *)
Lemma of_rows_span (K : fieldType) n (X : seq 'rV[K]_n) v : span id_ X v <-> (v <= of_rows X)%MS.
Proof.
split=> [[c ->]|/submxP [D ->]].
  apply/submxP; exists (\row_(i < size X) c i); rewrite mulmx_sum_row.
  by apply: eq_bigr => i _; rewrite rowK mxE.
exists (rowf D); rewrite mulmx_sum_row; apply: eq_bigr => i _.
by rewrite rowK /= rowfE.
Qed.
Lemma of_rows_indep (K : fieldType) n (X : seq 'rV[K]_n) : indep id_ X -> row_free (of_rows X).
Proof.
move=> I; rewrite -kermx_eq0; apply/eqP/row_matrixP => i; rewrite row0.
set w := row i _; have : w *m of_rows X = 0 by rewrite /w -row_mul mulmx_ker row0.
rewrite mulmx_sum_row => E; apply/rowP => j; rewrite [RHS]mxE -rowfE; apply: I => //.
by rewrite -[RHS]E; apply: eq_bigr => k _; rewrite rowfE rowK.
Qed.
Lemma basis_rank (K : fieldType) m n (X : seq 'rV[K]_n) (M : 'M[K]_(m, n)) :
  is_basis id_ X (fun v => (v <= M)%MS) -> size X = \rank M.
Proof.
case=> /of_rows_indep I B; rewrite -(eqnP I); apply: eqmx_rank.
apply/andP; split; apply/rV_subP => v.
  by move/of_rows_span/B.
by move/B/of_rows_span.
Qed.
Lemma null_basis_size (K : fieldType) m n (X : seq 'rV[K]_n) (A : 'M[K]_(m, n)) :
  is_basis id_ X (fun v => A *m v^T = 0) -> size X = (n - \rank A)%N.
Proof.
move=> B; rewrite -(mxrank_tr A) -mxrank_ker; apply: basis_rank; apply: eq_basis B => v.
rewrite sub_kermx; split=> [E|/eqP E]; first by rewrite -trmx0 -E trmx_mul trmxK.
by rewrite -[LHS]trmxK trmx_mul trmxK E trmx0.
Qed.

Lemma has_take_count (F : realFieldType) (atol : F) (lam : seq F) k : sorted <=%R lam ->
  has (fun x => atol < x) (take k lam) = (count (fun x : F => (x <= atol)%R) lam < minn k (size lam))%N.
Proof.
elim: lam k => [|x l IH] [|k] //= S; rewrite ?ltn0 // minnSS.
case: ltP => h /=; last by rewrite add1n ltnS IH // (path_sorted S).
rewrite add0n; suff -> : count (fun y => y <= atol) l = 0%N by [].
apply/eqP; rewrite -leqn0 leqNgt -has_count -all_predC; apply/allP => y yl /=.
by rewrite -ltNge; apply: lt_le_trans h _; move: S; rewrite (path_sortedE le_trans) => /andP [/allP /(_ y yl)].
Qed.

Section Sparse.
Variables (F : rcfType) (K : fieldType) (st : star F K) (m n : nat) (A : 'M[K]_(m, n)) (atol : F).
Local Notation cj := (cj st).
Local Notation emb := (emb st).
Local Notation H := (adj st A *m A).

Section Eigh.
Variables (lam : seq F) (V : 'M[K]_n).
Hypothesis E : is_eigh st H lam V.
Let W := V^T.

Lemma eW : unitary st W.
Proof.
case: E => /unitaryC U _ _ _; rewrite /unitary.
have -> : W *m adj st W = (adj st V *m V)^T by rewrite trmx_mul /adj map_trmx !trmxK.
by rewrite U trmx1.
Qed.

Lemma eigh_norm v : norm2 st (A *m v^T) = \sum_(i < n) lam`_i * nsq st (coo st W v i).
Proof.
apply: (@emb_inj _ _ st); have := norm2E st (A *m v^T); rewrite adjM -mulmxA (mulmxA (adj st A)).
case: E => U _ _ HV.
have HE : H = V *m diag_mx (\row_i emb lam`_i) *m adj st V by rewrite -HV -mulmxA U mulmx1.
set y := adj st V *m v^T.
have yE i : y i 0 = coo st W v i.
  by rewrite /y /coo !mxE; apply: eq_bigr => j _; rewrite !mxE mulrC.
rewrite HE -!mulmxA -/y (mulmxA (adj st v^T)).
have -> : adj st v^T *m V = adj st y by rewrite adjM adjK.
move=> /matrixP /(_ 0 0); rewrite [RHS]mxE eqxx mulr1n => <-.
rewrite mxE rmorph_sum; apply: eq_bigr => i _; rewrite adjE mul_diag_mx [(\matrix_(_, _) _) _ _]mxE [(\row_i _) _ _]mxE -yE rmorphM -nsqE mulrCA.
by congr (_ * _); rewrite mulrC.
Qed.

Lemma coo_row' i j : coo st W (row i W) j = (i == j)%:R. Proof. exact: coo_row eW _ _. Qed.
Lemma lam_norm (i : 'I_n) : lam`_i = norm2 st (A *m col i V).
Proof.
rewrite -[col i V]trmxK tr_col eigh_norm (bigD1 i) //= coo_row' eqxx nsq1 mulr1 big1 ?addr0 //.
by move=> j ji; rewrite coo_row' eq_sym (negPf ji) nsq0 mulr0.
Qed.
Lemma lam_ge0 x : x \in lam -> 0 <= x.
Proof.
case: E => _ sz _ _; case/(nthP 0) => i; rewrite sz => li <-.
by have := lam_norm (Ordinal li); rewrite /= => ->; rewrite norm2_ge0.
Qed.

Lemma found_largeE k : (k <= n)%N -> found_large atol (take k lam) = (count (fun x : F => (x <= atol)%R) lam < k)%N.
Proof.
case: (E) => _ sz So _ kn; rewrite -[k in RHS](minn_idPl kn) -{1}sz -has_take_count //.
by apply: eq_in_has => x xl; rewrite ger0_norm // lam_ge0 //; apply: mem_take xl.
Qed.

(* eigenvalues within the tolerance are zero *)
Definition gap : Prop := forall x (v : 'cV[K]_n), v != 0 -> H *m v = emb x *: v -> x <= atol -> x = 0.

Lemma gap_lam i : gap -> lam`_i <= atol -> lam`_i = 0.
Proof.
case: (ltnP i n) => [li|ni] g h; last by rewrite nth_default //; case: E => _ ->.
case: (E) => U sz _ HV; apply: (g lam`_i (col (Ordinal li) V)) => //.
  apply/eqP => e; have := coo_row' (Ordinal li) (Ordinal li); rewrite /coo.
  have -> : row (Ordinal li) W = 0 by rewrite -[LHS]trmxK tr_row trmxK e trmx0.
  by rewrite mul0mx mxE eqxx => /eqP; rewrite eq_sym oner_eq0.
rewrite colE mulmxA HV -colE; apply/colP => k; rewrite -colE [RHS]mxE !mxE (bigD1 (Ordinal li)) //= !mxE eqxx mulr1n mulrC.
by rewrite big1 ?addr0 // => j /negPf; rewrite !mxE => ->; rewrite mulr0.
Qed.

Lemma eigh_null : 0 <= atol -> gap ->
  is_basis id_ [seq row i W | i <- enum 'I_n & lam`_(val i) <= atol] (fun v => A *m v^T = 0).
Proof.
move=> a0 g; apply: eq_basis (rows_sub_basis eW _) => v; split=> [Hv|e i].
  apply: (@norm2_eq0 _ _ st); rewrite eigh_norm big1 // => i _.
  case: (boolP (lam`_i <= atol)) => [/(gap_lam g) ->|/Hv ->]; first by rewrite mul0r.
  by rewrite nsq0 mulr0.
rewrite -ltNge => h; have := eigh_norm v; rewrite e norm2_0 => /esym /eqP.
rewrite psumr_eq0 => [|j _]; last by rewrite mulr_ge0 ?nsq_ge0 // lam_norm norm2_ge0.
move=> /allP /(_ i (mem_index_enum i)); rewrite mulf_eq0 nsq_eq0 => /orP [/eqP s0|/eqP //].
by move: h; rewrite s0 ltNge a0.
Qed.

Lemma count_small : 0 <= atol -> gap -> count (fun x => x <= atol) lam = (n - \rank A)%N.
Proof.
move=> a0 g; rewrite -(null_basis_size (eigh_null a0 g)) size_map size_filter.
case: (E) => _ sz _ _.
have {1}-> : lam = [seq lam`_(val i) | i <- enum 'I_n].
  apply: (@eq_from_nth _ 0) => [|i li]; first by rewrite size_map size_enum_ord.
  rewrite sz in li; rewrite (nth_map (Ordinal li)) ?size_enum_ord //= nth_enum_ord //.
by rewrite count_map.
Qed.
End Eigh.

Variables (eigsh : nat -> res (seq F * seq 'cV[K]_n)) (qr : seq 'cV[K]_n -> seq 'cV[K]_n).
Hypothesis EC : eigsh_contract st H eigsh.
Hypothesis QC : qr_contract st qr.

Local Notation flags l := [seq np_isclose (fun x : F => `|x|) 0 atol x 0 | x <- l].

(* once a large eigenvalue was found, all small ones were *)
Lemma mask_all lam V k : is_eigh st H lam V -> (k <= n)%N -> found_large atol (take k lam) ->
  mask (flags (take k lam)) (take k (cols V)) = [seq col i V | i <- enum 'I_n & lam`_(val i) <= atol].
Proof.
move=> E kn fl; have [_ sz So _] := E.
have fE : flags lam = [seq lam`_(val i) <= atol | i <- enum 'I_n].
  apply: (@eq_from_nth _ true) => [|i]; first by rewrite [RHS]size_map size_enum_ord size_map.
  rewrite size_map => li; rewrite (nth_map 0) // /np_isclose subr0 normr0 mulr0 addr0 ger0_norm; last by rewrite (lam_ge0 E) // mem_nth.
  by rewrite sz in li; rewrite (nth_map (Ordinal li)) ?size_enum_ord //= nth_enum_ord.
rewrite -mask_map_enum -fE -/(cols V).
rewrite -{2}(cat_take_drop k lam) map_cat -{2}(cat_take_drop k (cols V)) mask_cat; last first.
  by rewrite size_map !size_take size_map size_enum_ord sz.
have -> : flags (drop k lam) = nseq (size (drop k lam)) false.
  apply: (@eq_from_nth _ false) => [|i]; rewrite size_map ?size_nseq // size_drop => li.
  rewrite (nth_map 0) ?size_drop // nth_nseq if_same nth_drop; apply/negbTE.
  rewrite /np_isclose subr0 normr0 mulr0 addr0 -ltNge.
  case/hasP: fl => x /(nthP 0) [j lj <-]; have jk : (j < k)%N by move: lj; rewrite size_take; case: ifP => //; lia.
  have lj' : (j < size lam)%N by rewrite sz (leq_trans jk).
  rewrite nth_take // ger0_norm ?(lam_ge0 E) ?mem_nth // => h.
  have li' : (k + i < size lam)%N by lia.
  rewrite ger0_norm ?(lam_ge0 E) ?mem_nth //; apply: lt_le_trans h _.
  by apply: (sorted_leq_nth le_trans le_refl) => //; rewrite ?inE //; lia.
by rewrite mask_false cats0.
Qed.

Lemma eigsh_ok k : (0 < k < n)%N -> exists lam V, is_eigh st H lam V /\ eigsh k = Ok (take k lam, take k (cols V)).
Proof. exact: (proj2 EC). Qed.

(* a successful search ends with a call that found a large eigenvalue *)
Lemma loop_ok fuel step k ev : sparse_loop atol eigsh fuel step k = Ok ev ->
  exists2 k', (0 < k' < n)%N & eigsh k' = Ok ev /\ found_large atol ev.1.
Proof.
elim: fuel k => //= f IH k; case: ifP => // kn.
case: (posnP k) => [->|k0]; first by rewrite (proj1 EC).
case e: (eigsh k) => [ev'|] //=; case: ifP => [fl [<-]|_ /IH //].
by exists k => //; lia.
Qed.
Lemma loop_err fuel step k er : sparse_loop atol eigsh fuel step k = Err er -> er = ValueError.
Proof.
elim: fuel k => [|f IH] k /=; first by case.
case: ifP => [kn|_ []] //; case: (posnP k) => [->|k0]; first by rewrite (proj1 EC) => -[].
have kk : (0 < k < n)%N by lia.
by have [lam [V [_ ->]]] := eigsh_ok kk; rewrite /bind; case: ifP => // _ /IH.
Qed.

Lemma eigsh_found k : 0 <= atol -> gap -> (0 < k < n)%N ->
  exists2 ev, eigsh k = Ok ev & found_large atol ev.1 = (n - \rank A < k)%N.
Proof.
move=> a0 g kk; have [lam [V [E ->]]] := eigsh_ok kk; exists (take k lam, take k (cols V)) => //=.
by rewrite (found_largeE E) ?(count_small E) //; lia.
Qed.

Lemma loop_iff fuel step k : 0 <= atol -> gap -> (0 < step)%N -> (0 < k)%N -> (n <= fuel + k)%N ->
  is_ok (sparse_loop atol eigsh fuel step k) <->
  exists j, (k + j * step < n.-1)%N /\ (n - \rank A < k + j * step)%N.
Proof.
move=> a0 g s0; elim: fuel k => [|f IH] k k0 nf.
  by rewrite /=; split=> // -[j [h _]]; lia.
rewrite [sparse_loop _ _ _ _ _]/=; case: ifP => [kn|/negbT nk]; last by split=> // -[j [h _]]; lia.
have kk : (0 < k < n)%N by lia.
have [ev -> E] := eigsh_found a0 g kk; rewrite /bind E; case: ifP => [h|/negbT h].
  by split=> // _; exists 0%N; rewrite mul0n addn0; split=> //; lia.
rewrite IH; [|lia|lia]; split=> [[j [h1 h2]]|[[|j] [h1 h2]]]; first by exists j.+1; lia.
  by move: h2 h; rewrite mul0n addn0 => ->.
by exists j; lia.
Qed.

Lemma loop0 fuel step : ~~ is_ok (sparse_loop atol eigsh fuel step 0).
Proof. by case: fuel => //= f; case: ifP => // _; rewrite (proj1 EC). Qed.

(* C28: what a search with negative k_max returns *)
Theorem C28_result k R : 0 <= atol -> gap ->
  ~~ [forall i, forall j, np_isclose (fun x => Num.sqrt (nsq st x)) 0 (atol / n%:R) (A i j) 0] ->
  nullspace_sparse st A atol eigsh qr (Negz k) = Ok R ->
  (forall i j, (i < size R)%N -> (j < size R)%N -> rdot st R`_j R`_i = (i == j)%:R) /\
  is_basis id_ R (fun v => A *m v^T = 0).
Proof.
move=> a0 g /negPf nz; rewrite /nullspace_sparse; case: ifP => // _; rewrite nz.
case e: (sparse_loop _ _ _ _ _) => [ev|] //= [<-] {R}.
have [k' kk [e' fl]] := loop_ok e.
have [lam [V [E e'']]] := eigsh_ok kk; move: e'' fl; rewrite e' => -[->] /= fl.
rewrite (mask_all E) //; last by case/andP: kk => _ /ltnW.
set X := [seq col i V | i <- _].
have EX : [seq row i V^T | i <- enum 'I_n & lam`_(val i) <= atol] = [seq v^T | v <- X].
  by rewrite -map_comp; apply: eq_map => i /=; rewrite tr_col.
have B := eigh_null E a0 g; rewrite EX in B.
have cT (Y : seq 'cV[K]_n) c : comb id_ [seq v^T | v <- Y] c = (comb id_ Y c)^T.
  apply: (@comb_map _ _ id_ _ _ (fun v : 'cV[K]_n => v^T)) => [|u v|a v]; first exact: trmx0.
    exact: raddfD.
  exact: linearZ.
have IX : indep id_ X.
  by move=> c ec j lj; apply: (proj1 B c); [rewrite cT ec; apply: trmx0|rewrite size_map].
set Y := if _ then _ else _.
have [OY SY] : orthonormal st Y /\ forall v, span id_ Y v <-> span id_ X v.
  by rewrite /Y; case: ifP => [_|/negbT]; [apply: QC|case: (X)].
have rE i j : (i < size Y)%N -> (j < size Y)%N -> rdot st [seq v^T | v <- Y]`_j [seq v^T | v <- Y]`_i = (i == j)%:R.
  move=> li lj; rewrite !(nth_map 0) // -(OY i j) // /cdot /rdot mxE; apply: eq_bigr => l _.
  by rewrite !mxE mulrC.
have oI c : comb id_ Y c = 0 -> forall j, (j < size Y)%N -> c j = 0.
  move=> ec j lj; have : cdot st Y`_j (comb id_ Y c) = c j.
    rewrite /cdot /comb mulmx_sumr summxE (bigD1 (Ordinal lj)) //= -scalemxAr mxE -/(cdot st Y`_j Y`_j) OY // eqxx mulr1.
    rewrite big1 ?addr0 // => i ij; rewrite -scalemxAr mxE -/(cdot st Y`_j Y`_i) OY //.
    by case: eqP => [e0|_]; [case/eqP: ij; apply: val_inj|rewrite mulr0].
  by rewrite ec /cdot mulmx0 mxE => <-.
split; first by rewrite size_map.
split=> [c|v]; first by rewrite cT size_map => /(congr1 trmx); rewrite trmxK trmx0 => /oI.
rewrite (proj2 B v); split=> -[c ec].
  have /SY [d ed] : span id_ X v^T by exists c; rewrite ec cT trmxK.
  by exists d; rewrite cT -ed trmxK.
have /SY [d ed] : span id_ Y v^T by exists c; rewrite ec cT trmxK.
by exists d; rewrite cT -ed trmxK.
Qed.

(* when it succeeds *)
Theorem C28_succeeds_iff k : 0 <= atol -> gap -> (0 < n)%N ->
  ~~ [forall i, forall j, np_isclose (fun x => Num.sqrt (nsq st x)) 0 (atol / n%:R) (A i j) 0] ->
  let step := k.+1 in
  (is_ok (nullspace_sparse st A atol eigsh qr (Negz k)) <->
   (2 < n)%N /\ exists j, let r := (minn (n - 2) step + j * step)%N in (r < n.-1)%N /\ (n - \rank A < r)%N) /\
  (~~ is_ok (nullspace_sparse st A atol eigsh qr (Negz k)) ->
   nullspace_sparse st A atol eigsh qr (Negz k) = Err ValueError).
Proof.
move=> a0 g n0 /negPf nz; rewrite /nullspace_sparse eqn0Ngt n0 nz /=.
have okE (x : res (seq F * seq 'cV[K]_n)) (f : seq F * seq 'cV[K]_n -> seq 'rV[K]_n) :
  is_ok (do ev <- x; Ok (f ev)) = is_ok x by case: x.
split; last first.
  case e: (sparse_loop _ _ _ _ _) => [ev|er] //= _; congr (Err _); exact: loop_err e.
rewrite okE; case: (ltnP 2 n) => n2.
  by rewrite loop_iff //; [split=> [h|[]] | lia | lia].
split=> [|[]] //; case e: (sparse_loop _ _ _ _ _) => [ev|er] //= _.
have k0 : minn (n - 2) k.+1 = 0%N by lia.
by move: e; rewrite k0 => e; have := loop0 n k.+1; rewrite e.
Qed.
End Sparse.

(* a projector with a null space of dimension d *)
Section Projector.
Variables (F : rcfType) (n d : nat) (atol : F).
Hypotheses (dn : (d < n)%N) (a0 : 0 <= atol) (a1 : atol < 1).
Local Notation rs := (real_star F).
Definition proj : 'M[F]_n := diag_mx (\row_i (d <= i)%:R).
Definition proj_lam : seq F := nseq d 0 ++ nseq (n - d) 1.

Lemma proj_H : adj rs proj *m proj = proj.
Proof.
have -> : adj rs proj = proj by apply/matrixP => i j; rewrite !mxE eq_sym; case: eqP => [->|].
apply/matrixP => i j; rewrite mul_diag_mx !mxE; case: eqP => [->|]; rewrite ?mulr0 // !mulr1n.
by case: leqP; rewrite ?mulr1 ?mulr0.
Qed.
Lemma proj_lamE i : (i < n)%N -> proj_lam`_i = (d <= i)%:R.
Proof. by move=> li; rewrite nth_cat size_nseq !nth_nseq; case: ltnP => h; rewrite ?if_same // ifT //; lia. Qed.
Lemma proj_eigh : is_eigh rs (adj rs proj *m proj) proj_lam 1%:M.
Proof.
split; first exact: unitary1.
- by rewrite size_cat !size_nseq subnKC // ltnW.
- apply: (path_sorted (x := 0)); rewrite cat_path.
  have P x k : path <=%R x (nseq k x) by elim: k => //= k ->; rewrite lexx.
  have L k : last (0 : F) (nseq k 0) = 0 by elim: k.
  by rewrite P L; case: (n - d)%N => //= k; rewrite P andbT ler01.
rewrite proj_H mulmx1 mul1mx; congr diag_mx; apply/rowP => i; rewrite !mxE.
by rewrite proj_lamE.
Qed.
Lemma proj_contract : exists eigsh, eigsh_contract rs (adj rs proj *m proj) eigsh.
Proof.
exists (fun k => if k is 0%N then Err ValueError else Ok (take k proj_lam, take k (cols 1%:M))).
by split=> // -[|k] // _; exists proj_lam, 1%:M; split=> //; exact: proj_eigh.
Qed.
Lemma proj_gap : gap rs proj atol.
Proof.
move=> x v v0; rewrite proj_H => E xa.
have [i vi] : exists i, v i 0 != 0.
  apply/existsP; rewrite -negb_forall; apply: contra v0 => /forallP h; apply/eqP/colP => i.
  by rewrite [RHS]mxE; apply/eqP; apply: h.
move/colP: E => /(_ i); rewrite mul_diag_mx !mxE => /(mulIf vi).
by case: leqP => _ /= e //; move: xa; rewrite -[x]/(idfun x) -e leNgt a1.
Qed.
Lemma proj_rank : \rank proj = (n - d)%N.
Proof.
have := count_small proj_eigh a0 proj_gap; rewrite count_cat !count_nseq a0 leNgt a1 mul1n mul0n addn0 => e.
by have := rank_leq_row proj; lia.
Qed.
Lemma proj_nz : ~~ [forall i, forall j, np_isclose (fun x => Num.sqrt (nsq rs x)) 0 (atol / n%:R) (proj i j) 0].
Proof.
apply/negP => /forallP /(_ (Ordinal dn)) /forallP /(_ (Ordinal dn)); rewrite /np_isclose mul0r addr0 subr0 !mxE eqxx leqnn mulr1n.
rewrite /= expr1n sqrtr1 leNgt => /negP []; apply: le_lt_trans a1.
by rewrite ler_pdivr_mulr ?ltr0n ?(leq_ltn_trans (leq0n d)) // ler_pemulr // ler1n (leq_ltn_trans (leq0n d)).
Qed.

Theorem C28_projector k eigsh qr : eigsh_contract rs (adj rs proj *m proj) eigsh ->
  ~ ((2 < n)%N /\ exists j, (minn (n - 2) k.+1 + j * k.+1 < n.-1)%N /\ (d < minn (n - 2) k.+1 + j * k.+1)%N) ->
  nullspace_sparse rs proj atol eigsh qr (Negz k) = Err ValueError.
Proof.
move=> EC nok.
have [I E] := C28_succeeds_iff qr EC k a0 proj_gap (leq_ltn_trans (leq0n d) dn) proj_nz.
apply: E; apply/negP => /I /=; rewrite proj_rank subKn; [exact: nok|exact: ltnW].
Qed.
End Projector.

(* C28 is false: with the default step of 10, a matrix of size 15 with a null space
   of dimension 12 is rejected ... *)
Theorem C28_default_step_refuted (F : rcfType) (atol : F) : 0 <= atol < 1 ->
  exists A : 'M[F]_15, \rank A = 3%N /\
    (exists eigsh, eigsh_contract (real_star F) (adj (real_star F) A *m A) eigsh) /\
    forall eigsh qr, eigsh_contract (real_star F) (adj (real_star F) A *m A) eigsh ->
      nullspace_sparse (real_star F) A atol eigsh qr (Negz 9) = Err ValueError.
Proof.
move=> /andP [a0 a1]; exists (proj F 15 12); split; first exact: (@proj_rank F 15 12 atol).
split=> [|eigsh qr EC]; first by apply: (@proj_contract _ _ _ atol).
apply: (@C28_projector F 15 12 atol) => // -[_ [j []]] /=.
by rewrite (_ : minn (15 - 2) 10 = 10)%N //; lia.
Qed.

(* ... and whatever the step, a null space of dimension n - 2 is rejected although
   the message of the exception allows it. *)
Theorem C28_dimension_refuted (F : rcfType) (atol : F) n k : 0 <= atol < 1 -> (2 < n)%N ->
  exists A : 'M[F]_n, \rank A = 2%N /\
    (exists eigsh, eigsh_contract (real_star F) (adj (real_star F) A *m A) eigsh) /\
    forall eigsh qr, eigsh_contract (real_star F) (adj (real_star F) A *m A) eigsh ->
      nullspace_sparse (real_star F) A atol eigsh qr (Negz k) = Err ValueError.
Proof.
move=> /andP [a0 a1] n2; have dn : (n - 2 < n)%N by lia.
exists (proj F n (n - 2)); split; first by rewrite (@proj_rank F n (n - 2) atol) //; lia.
split=> [|eigsh qr EC]; first by apply: (@proj_contract _ _ _ atol).
by apply: (@C28_projector F n (n - 2) atol) => // -[_ [j [h1 h2]]]; lia.
Qed.

(* With the smallest step every null space of dimension at most n - 3 is found. *)
Theorem C28_step_one (F : rcfType) (K : fieldType) (st : star F K) m n (A : 'M[K]_(m, n)) (atol : F) eigsh qr :
  eigsh_contract st (adj st A *m A) eigsh -> 0 <= atol -> gap st A atol ->
  ~~ [forall i, forall j, np_isclose (fun x => Num.sqrt (nsq st x)) 0 (atol / n%:R) (A i j) 0] ->
  (2 < n)%N -> (n - \rank A <= n - 3)%N -> is_ok (nullspace_sparse st A atol eigsh qr (Negz 0)).
Proof.
move=> EC a0 g nz n2 d; have [I _] := C28_succeeds_iff qr EC 0 a0 g (ltnW (ltnW n2)) nz.
apply/I; split=> //; exists (n - 3)%N; lia.
Qed.

Print Assumptions C26_orthonormal.
Print Assumptions C26_exact.
Print Assumptions C27_complement_conj.
Print Assumptions C27_complement_refuted.
Print Assumptions C28_result.
Print Assumptions C28_succeeds_iff.
Print Assumptions C28_default_step_refuted.
Print Assumptions C28_dimension_refuted.
