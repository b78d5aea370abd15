(* C77: simult_diag *)
From mathcomp Require Import all_ssreflect all_algebra zify.
From mathcomp Require Import complex.
From Verif Require Import Prelude LinSpan Star Nullspace Tolerance PropTol SymBlocks PropBlocks PropCircular PropLie SimultDiag.

Set Implicit Arguments.
Unset Strict Implicit.
Unset Printing Implicit Defensive.
Import Order.TTheory GRing.Theory Num.Theory.
Local Open Scope ring_scope.

Section Simult.
Variables (F : rcfType).
Local Notation C := F[i].

(* ---- specification ---- *)
Definition normal n (H : 'M[C]_n) := H *m dag H = dag H *m H.
Definition eigenval n (H : 'M[C]_n) (a : C) := exists2 v : 'cV[C]_n, v != 0 & H *m v = a *: v.
(* different eigenvalues are further apart than the tolerance *)
Definition gapped (tol : F) n (H : 'M[C]_n) := forall a b, eigenval H a -> eigenval H b -> a != b -> tol < cabs (a - b).
Fixpoint apart (T : Type) (R : T -> T -> Prop) (s : seq T) : Prop :=
  if s is x :: s' then (forall y, List.In y s' -> R x y) /\ apart R s' else True.
Section Spec.
Variables (n : nat) (mats : seq 'M[C]_n).
(* the two subspaces belong to different eigenvalues of one of the matrices *)
Definition separated (P P' : rect F n) : Prop :=
  exists2 H, List.In H mats & exists c c', [/\ c != c', H *m tagged P = c *: tagged P & H *m tagged P' = c' *: tagged P'].
Definition is_diag (Ps : seq (rect F n)) : Prop :=
  [/\ forall P, List.In P Ps -> (0 < tag P)%N /\ dag (tagged P) *m tagged P = 1%:M,
      \sum_(P <- Ps) tagged P *m dag (tagged P) = 1%:M,
      forall P H, List.In P Ps -> List.In H mats -> exists c, H *m tagged P = c *: tagged P &
      apart separated Ps].
End Spec.

(* ---- contracts ---- *)
Variables (tol : F) (t0 : 0 < tol).
Variables (eigh : forall n, 'M[C]_n -> seq F * 'M[C]_n) (eig : forall n, 'M[C]_n -> seq C * 'M[C]_n).
Variables (qr : forall n, 'M[C]_n -> 'M[C]_n) (components : forall n, rel 'I_n -> seq nat) (argsort : seq nat -> seq nat).
Definition eigh_contract := forall n (H : 'M[C]_n), dag H = H -> is_eigh (complex_star F) H (eigh H).1 (eigh H).2.
Definition eig_contract := forall n (H : 'M[C]_n), normal H ->
  [/\ size (eig H).1 = n, (eig H).2 \in unitmx & H *m (eig H).2 = (eig H).2 *m diag_mx (\row_i (eig H).1`_i)].
Definition qr_contract := forall n (A : 'M[C]_n), A \in unitmx -> qr A *m dag (qr A) = 1%:M /\ forall i j : 'I_n, (j < i)%N -> (dag (qr A) *m A) i j = 0.
Definition components_contract := forall n (r : rel 'I_n), symmetric r ->
  size (components r) = n /\ forall i j : 'I_n, (nth 0%N (components r) i == nth 0%N (components r) j) = connect r i j.
Definition argsort_contract := forall s, perm_eq (argsort s) (iota 0 (size s)) /\ sorted leq [seq nth 0%N s i | i <- argsort s].
Hypotheses (eighP : eigh_contract) (eigP : eig_contract) (qrP : qr_contract) (compP : components_contract) (argP : argsort_contract).

(* ---- triangular matrices ---- *)
Lemma triang_intertwine n (T R : 'M[C]_n) (D : 'rV[C]_n) : (forall i j : 'I_n, (j < i)%N -> R i j = 0) -> (forall i, R i i != 0) ->
  T *m R = R *m diag_mx D -> (forall i j : 'I_n, (j < i)%N -> T i j = 0) /\ forall i, T i i = D 0 i.
Proof.
move=> up nz e.
have eij i j : \sum_k T i k * R k j = R i j * D 0 j.
  have /matrixP /(_ i j) := e; rewrite mxE => ->; rewrite mxE (bigD1 j) //= mxE eqxx mulr1n big1 ?addr0 // => k kj.
  by rewrite mxE (negPf kj) mulr0n mulr0.
have low : forall i j : 'I_n, (j < i)%N -> T i j = 0.
  move=> i j; have [m mj] := ubnP (val j); elim: m j mj => // m IH j mj ji.
  have := eij i j; rewrite up // mul0r (bigD1 j) //= big1 ?addr0 => [|k kj]; last first.
    case: (ltnP j k) => [jk|kj']; first by rewrite up ?mulr0.
    have lt : (k < j)%N by rewrite ltn_neqAle kj' (inj_eq val_inj) kj.
    have km : (k < m)%N by exact: leq_trans lt mj.
    by rewrite IH ?mul0r //; exact: ltn_trans lt ji.
  by move=> /eqP; rewrite mulf_eq0 (negPf (nz j)) orbF => /eqP.
split=> // i; have := eij i i; rewrite (bigD1 i) //= big1 ?addr0 => [|k ki]; last first.
  case: (ltnP i k) => [ik|ki']; first by rewrite up ?mulr0.
  by rewrite low ?mul0r // ltn_neqAle ki' (inj_eq val_inj) ki.
by rewrite mulrC => /(mulfI (nz i)).
Qed.
Lemma triang_normal n (T : 'M[C]_n) : normal T -> (forall i j : 'I_n, (j < i)%N -> T i j = 0) -> forall i j : 'I_n, i != j -> T i j = 0.
Proof.
move=> nT low; suff up : forall i j : 'I_n, (i < j)%N -> T i j = 0.
  by move=> i j; case: (ltngtP i j) => [/up //|/low //|/val_inj ->]; rewrite eqxx.
move=> i; have [m mi] := ubnP (val i); elim: m i mi => // m IH i mi.
have /matrixP /(_ i i) := nT; rewrite !mxE.
rewrite (bigD1 i) //= [in RHS](bigD1 i) //= [X in _ = _ + X]big1 => [|k ki]; last first.
  case: (ltnP i k) => [ik|ki']; first by rewrite low ?mulr0.
  have lt : (k < i)%N by rewrite ltn_neqAle ki' (inj_eq val_inj) ki.
  have km : (k < m)%N by exact: leq_trans lt mi.
  by rewrite (IH k km) ?mulr0.
rewrite !mxE mulrC => /addrI z j ij.
have ge k : k != i -> 0 <= T i k * dag T k i by move=> _; rewrite !mxE -sqr_normc exprn_ge0.
have := psumr_eq0P ge z (i := j); rewrite !mxE -sqr_normc => h.
by apply/eqP; rewrite -normr_eq0 -sqrf_eq0; apply/eqP/h; rewrite -(inj_eq val_inj) gtn_eqF.
Qed.

(* ---- grouped_diag ---- *)
Lemma adj_dag m n (A : 'M[C]_(m, n)) : adj (complex_star F) A = dag A.
Proof. by apply/matrixP => i j; rewrite !mxE. Qed.
Lemma dagE m n (A : 'M[C]_(m, n)) i j : dag A i j = conjc (A j i).
Proof. by rewrite !mxE. Qed.
Lemma unitaryC n (U : 'M[C]_n) : U *m dag U = 1%:M -> dag U *m U = 1%:M.
Proof. exact: mulmx1C. Qed.
Lemma perm_colsE n (order : seq nat) (U : 'M[C]_n) : perm_eq order (iota 0 n) ->
  perm_cols order U = U *m (\matrix_(x, y) (nth 0%N order y == x)%:R) /\
  (\matrix_(x, y) (nth 0%N order y == x)%:R : 'M[C]_n) \in unitmx.
Proof.
move=> pm; have sz : size order = n by rewrite (perm_size pm) size_iota.
have lt (y : 'I_n) : (nth 0%N order y < n)%N.
  by have := mem_nth 0%N (_ : (y < size order)%N); rewrite sz (perm_mem pm) mem_iota => /(_ (ltn_ord y)).
split.
  apply/matrixP => x y; rewrite !mxE (insubT (fun k => k < n)%N (lt y)) (bigD1 (Ordinal (lt y))) //= mxE eqxx mulr1 big1 ?addr0 // => z zy.
  by rewrite mxE -(inj_eq val_inj) /= in zy *; rewrite eq_sym (negPf zy) mulr0.
set S := \matrix_(x, y) _; suff : S^T *m S = 1%:M by case/mulmx1_unit.
apply/matrixP => y y'; rewrite !mxE (bigD1 (Ordinal (lt y))) //= !mxE eqxx mul1r big1 ?addr0 => [|z zy].
  by rewrite nth_uniq ?sz // 1?(perm_uniq pm) ?iota_uniq // eq_sym.
by rewrite !mxE -(inj_eq val_inj) /= in zy *; rewrite eq_sym (negPf zy) mul0r.
Qed.
Lemma diag_nz n (R : 'M[C]_n) : (forall i j : 'I_n, (j < i)%N -> R i j = 0) -> R \in unitmx -> forall i, R i i != 0.
Proof. by move=> up; rewrite unitmxE unitfE (det_upper up) => /prodf_neq0 H i; apply: H. Qed.
Lemma mul_diag_col n p (H : 'M[C]_n) (V : 'M[C]_(n, p)) (D : 'rV[C]_p) j : H *m V = V *m diag_mx D -> H *m col j V = D 0 j *: col j V.
Proof.
move=> e; have -> : H *m col j V = col j (V *m diag_mx D) by rewrite !colE mulmxA e.
apply/matrixP => x z; rewrite !mxE (bigD1 j) //= mxE eqxx mulr1n big1 ?addr0 1?mulrC // => k kj.
by rewrite mxE (negPf kj) mulr0n mulr0.
Qed.
Lemma unit_col n (V : 'M[C]_n) j : V \in unitmx -> col j V != 0.
Proof.
move=> u; apply/eqP => e; have := congr1 (mulmx (invmx V)) e; rewrite colE mulmxA mulVmx // mulmx0 mul1mx.
by move=> /matrixP /(_ j 0); rewrite !mxE eqxx => /eqP; rewrite oner_eq0.
Qed.

(* equal values are neighbours *)
Definition grouped (ev : seq C) := forall i j k, (i <= j <= k)%N -> (k < size ev)%N -> ev`_i = ev`_k -> ev`_i = ev`_j.
Lemma close_eq n (a b : C) : (0 < n)%N -> (a != b -> tol < cabs (a - b)) -> (cabs (a - b) < tol / n%:R) = (a == b) /\ (tol / n%:R < cabs (a - b)) = (a != b).
Proof.
move=> n0 g; have nr : (0 : F) < n%:R by rewrite ltr0n.
have le : tol / n%:R <= tol by rewrite ler_pdivr_mulr // ler_pmulr // ler1n.
have z : @cabs F 0 = 0 by rewrite /cabs /= expr0n addr0 sqrtr0.
have [->|ab] := eqVneq a b; first by rewrite subrr z divr_gt0 // ltNge ltW ?divr_gt0.
have lt := le_lt_trans le (g ab); by rewrite lt ltNge ltW.
Qed.

Lemma grouped_diagP n (H : 'M[C]_n) : (0 < n)%N -> normal H -> gapped tol H ->
  exists EU : seq C * 'M[C]_n, [/\ grouped_diag tol eigh eig qr components argsort H = Ok EU,
    size EU.1 = n, EU.2 *m dag EU.2 = 1%:M, H *m EU.2 = EU.2 *m diag_mx (\row_i EU.1`_i) & grouped EU.1].
Proof.
move=> n0 nH gH; rewrite /grouped_diag; case: ifP => [/eqP hH|_].
  have := eighP (esym hH); case: (eigh H) => ev U [/= uU sz so e].
  exists ([seq real_complex F x | x <- ev], U); split=> //=; rewrite ?size_map //.
  - by rewrite -adj_dag.
  - by rewrite e; congr (_ *m diag_mx _); apply/rowP => i; rewrite !mxE (nth_map 0) ?sz.
  - move=> i j k /andP[ij jk]; rewrite size_map => ks.
    have js := leq_ltn_trans jk ks; have is_ := leq_ltn_trans ij js.
    rewrite !(nth_map 0) // => -[eik]; congr (real_complex F _).
    have m := sorted_leq_nth (@le_trans _ F) (@lexx _ F) 0 so.
    by apply/le_anti; rewrite {2}eik !m ?inE.
rewrite nH eqxx /=; have := eigP nH; case: (eig H) => ev U [/= sz uU e].
have ap x y : (x < n)%N -> (y < n)%N -> ev`_x != ev`_y -> tol < cabs (ev`_x - ev`_y).
  move=> xn yn; apply: gH; [exists (col (Ordinal xn) U)|exists (col (Ordinal yn) U)]; rewrite ?unit_col //.
  - by rewrite (mul_diag_col _ e) mxE.
  - by rewrite (mul_diag_col _ e) mxE.
have conE (x y : 'I_n) : con tol ev x y = (ev`_x == ev`_y) by have [] := close_eq n0 (ap x y (ltn_ord x) (ltn_ord y)).
have sym : symmetric (@con F tol n ev) by move=> x y; rewrite !conE eq_sym.
have [szc lab] := compP sym; set cs := components _ in szc lab *.
have cE (x y : 'I_n) : connect (@con F tol n ev) x y = (ev`_x == ev`_y).
  apply/idP/idP => [/connectP[p pth ->]|xy]; last by apply: connect1; rewrite conE.
  by elim: p x pth => //= z p IH x /andP[]; rewrite conE => /eqP -> /IH.
have [pm so] := argP cs; set order := argsort cs in pm so *; rewrite szc in pm.
have szo : size order = n by rewrite (perm_size pm) size_iota.
have lt y : (y < n)%N -> (nth 0%N order y < n)%N.
  by move=> yn; have := mem_nth 0%N (_ : (y < size order)%N); rewrite szo (perm_mem pm) mem_iota => /(_ yn).
have [AE uS] := perm_colsE U pm; set A := perm_cols order U in AE *.
have uA : A \in unitmx by rewrite AE unitmx_mul uU.
set D : 'rV[C]_n := \row_i [seq ev`_x | x <- order]`_i.
have HA : H *m A = A *m diag_mx D.
  apply/matrixP => x y; rewrite mul_mx_diag mxE [D _ _]mxE (nth_map 0%N) ?szo //.
  have /matrixP /(_ x 0) := mul_diag_col (Ordinal (lt y (ltn_ord y))) e; rewrite !mxE /= => E.
  rewrite (insubT (fun k => k < n)%N (lt y (ltn_ord y))) mulrC -E; apply: eq_bigr => z _.
  by rewrite !mxE (insubT (fun k => k < n)%N (lt y (ltn_ord y))).
have [uQ up] := qrP uA; set Q := qr A in uQ up *; have uQ' := unitaryC uQ.
have uR : dag Q *m A \in unitmx by rewrite unitmx_mul uA andbT; case/mulmx1_unit: uQ.
have TR : (dag Q *m H *m Q) *m (dag Q *m A) = (dag Q *m A) *m diag_mx D.
  by rewrite mulmxA -(mulmxA _ Q) uQ mulmx1 -mulmxA HA mulmxA.
have [low dg] := triang_intertwine up (diag_nz up uR) TR.
have nT : normal (dag Q *m H *m Q).
  rewrite /normal !dag_mul dagK !mulmxA -(mulmxA _ Q) uQ mulmx1 -(mulmxA _ Q (dag Q)) uQ mulmx1.
  by rewrite -(mulmxA _ H) nH !mulmxA.
have off := triang_normal nT low.
have TD : dag Q *m H *m Q = diag_mx D.
  by apply/matrixP => x y; rewrite [RHS]mxE; have [->|xy] := eqVneq x y; [rewrite dg mulr1n|rewrite off // mulr0n].
exists ([seq ev`_x | x <- order], Q); split=> //=; rewrite ?size_map //.
  by rewrite -/D -TD !mulmxA uQ mul1mx.
move=> i j k /andP[ij jk]; rewrite size_map => ks.
have js := leq_ltn_trans jk ks; have is_ := leq_ltn_trans ij js.
rewrite !(nth_map 0%N) // => eik.
have m x y : (x <= y)%N -> (y < size order)%N -> (nth 0%N cs (nth 0%N order x) <= nth 0%N cs (nth 0%N order y))%N.
  move=> xy ys; have := sorted_leq_nth leq_trans leqnn 0%N so.
  move=> /(_ x y); rewrite !inE size_map ys (leq_ltn_trans xy ys) => /(_ isT isT xy).
  by rewrite !(nth_map 0%N) // (leq_ltn_trans xy ys).
have lb x y : (x < size order)%N -> (y < size order)%N -> (nth 0%N cs (nth 0%N order x) == nth 0%N cs (nth 0%N order y)) = (ev`_(nth 0%N order x) == ev`_(nth 0%N order y)).
  by rewrite szo => /lt xs /lt ys; have := lab (Ordinal xs) (Ordinal ys); rewrite cE.
apply/eqP; rewrite -lb // eqn_leq m //=.
by have /eqP -> : nth 0%N cs (nth 0%N order i) == nth 0%N cs (nth 0%N order k); [rewrite lb // eik|exact: m].
Qed.

(* ---- lists ---- *)
Lemma apart_cat T (R : T -> T -> Prop) s t : apart R s -> apart R t -> (forall x y, List.In x s -> List.In y t -> R x y) -> apart R (s ++ t).
Proof.
elim: s => //= a s IH [h ap] at_ x; split.
  by move=> y /In_cat[/h //|yt]; apply: x => //; left.
by apply: IH => // u v us; apply: x; right.
Qed.
Lemma apart_map T U (R : T -> T -> Prop) (R' : U -> U -> Prop) (f : T -> U) s :
  (forall x y, R x y -> R' (f x) (f y)) -> apart R s -> apart R' (map f s).
Proof.
move=> h; elim: s => //= a s IH [ha ap]; split; last exact: IH.
by move=> y /In_map_iff[x xs ->]; apply/h/ha.
Qed.
Lemma map_resP T U (f : T -> res U) (g : T -> U) s : (forall x, List.In x s -> f x = Ok (g x)) -> map_res f s = Ok (map g s).
Proof.
elim: s => //= a s IH h; rewrite h /=; last by left.
by rewrite IH //= => x xs; apply: h; right.
Qed.
Lemma map_resE T U (f : T -> res U) (d : U) s :
  (forall x, List.In x s -> f x = Ok (if f x is Ok y then y else d)) \/ exists x e, [/\ List.In x s, f x = Err e & map_res f s = Err e].
Proof.
elim: s => [|a s [IH|[x [e [xs ex es]]]]] /=; first by left.
  case E : (f a) => [y|e]; last by right; exists a, e; rewrite /= E; split=> //; left.
  by left=> x [<-|/IH]; rewrite ?E.
right; case E : (f a) => [y|e'] /=; last by exists a, e'; split=> //; left.
by exists x, e; rewrite es; split=> //; right.
Qed.
Lemma In_mem (T : eqType) (x : T) s : List.In x s <-> x \in s.
Proof.
elim: s => //= a s IH; rewrite inE; split=> [[->|/IH ->]|/orP[/eqP ->|/IH]]; rewrite ?eqxx ?orbT //; first by left.
by right.
Qed.

(* ---- the blocks of one matrix ---- *)
Section Blocks.
Variables (n : nat) (U : 'M[C]_n).
Hypothesis uU : U *m dag U = 1%:M.
Section Slice.
Variables (be : nat * nat) (le : (be.2 <= n)%N).
Local Notation d := (be.2 - be.1)%N.
Lemma pos_lt (y : 'I_d) : (be.1 + y < n)%N.
Proof. by have := ltn_ord y; rewrite ltn_subRL => /leq_trans; apply. Qed.
Definition pos (y : 'I_d) : 'I_n := Ordinal (pos_lt y).
Lemma pos_inj : injective pos. Proof. by move=> x y /(congr1 val) /addnI /val_inj. Qed.
Lemma posP (z : 'I_n) : (be.1 <= z < be.2)%N -> exists y, z = pos y.
Proof.
case/andP=> bz ze; have lt : (z - be.1 < d)%N by rewrite ltn_sub2r // (leq_ltn_trans bz).
by exists (Ordinal lt); apply/val_inj; rewrite /= subnKC.
Qed.
Lemma pos_in y : (be.1 <= pos y < be.2)%N.
Proof. by rewrite /= leq_addr /= -ltn_subRL. Qed.
Lemma col_sliceE (V : 'M[C]_n) x y : col_slice be V x y = V x (pos y).
Proof. by rewrite mxE (insubT (fun k => k < n)%N (pos_lt y)). Qed.
Lemma block_sliceE (V : 'M[C]_n) x y : block_slice be V x y = V (pos x) (pos y).
Proof. by rewrite mxE (insubT (fun k => k < n)%N (pos_lt x)) (insubT (fun k => k < n)%N (pos_lt y)). Qed.
Lemma slice_orth : dag (col_slice be U) *m col_slice be U = 1%:M.
Proof.
have /matrixP uU' := unitaryC uU; apply/matrixP => x y; have := uU' (pos x) (pos y); rewrite !mxE (inj_eq pos_inj) => <-.
by apply: eq_bigr => z _; rewrite [dag _ _ _]mxE [(col_slice be U)^T _ _]mxE [X in _ = X * _]mxE [X in _ = _ X * _]mxE !col_sliceE.
Qed.
(* a matrix without elements between the block and the rest acts inside the block *)
Lemma slice_act (M : 'M[C]_n) : (forall x z : 'I_n, (be.1 <= x < be.2)%N = false -> (be.1 <= z < be.2)%N -> (dag U *m M *m U) x z = 0) ->
  M *m col_slice be U = col_slice be U *m block_slice be (dag U *m M *m U).
Proof.
move=> off; have MU : M *m U = U *m (dag U *m M *m U) by rewrite !mulmxA uU mul1mx.
apply/matrixP => x y; have /matrixP /(_ x (pos y)) := MU; rewrite [LHS]mxE => E.
rewrite mxE; under eq_bigr do rewrite col_sliceE.
rewrite E mxE (bigID (fun z : 'I_n => be.1 <= z < be.2)%N) /= [X in _ + X]big1 ?addr0 => [|z /negPf zb]; last by rewrite off ?mulr0 ?pos_in.
rewrite mxE; under [RHS]eq_bigr do rewrite col_sliceE block_sliceE.
have -> : \sum_(z : 'I_n | (be.1 <= z < be.2)%N) U x z * (dag U *m M *m U) z (pos y) = \sum_(z in [set pos u | u : 'I_d]) U x z * (dag U *m M *m U) z (pos y).
  apply: eq_bigl => z; apply/idP/imsetP => [/posP[u ->]|[u _ ->]]; first by exists u.
  exact: pos_in.
by rewrite big_imset //= => u v _ _; apply: pos_inj.
Qed.
Lemma dag_block (M : 'M[C]_n) : dag (block_slice be (dag U *m M *m U)) = block_slice be (dag U *m dag M *m U).
Proof.
have -> : dag U *m dag M *m U = dag (dag U *m M *m U) by rewrite !dag_mul dagK mulmxA.
by apply/matrixP => x y; rewrite [RHS]block_sliceE ![dag _ _ _]mxE ![_^T _ _]mxE block_sliceE.
Qed.
End Slice.

Lemma apart_in T (R : T -> T -> Prop) s x y : apart R s -> (forall u v, R u v -> R v u) -> List.In x s -> List.In y s -> x <> y -> R x y.
Proof.
move=> ap sy; elim: s ap => //= a s IH [h ap] [<-|xs] [<-|ys] ne //; [exact: h|exact/sy/h|exact: IH].
Qed.
Lemma consecutive bs m k : all (fun p : nat * nat => p.1 < p.2)%N bs -> flatten [seq iota p.1 (p.2 - p.1) | p <- bs] = iota m k ->
  [/\ apart (fun p q : nat * nat => p.2 <= q.1)%N bs, forall p, List.In p bs -> (m <= p.1)%N & forall p, List.In p bs -> (p.2 <= m + k)%N].
Proof.
elim: bs m k => [|p bs IH] m k //= /andP[lt al] e.
have sz := congr1 size e; rewrite size_cat !size_iota in sz.
have pm : p.1 = m.
  have := congr1 (head 0%N) e; have d0 : (0 < p.2 - p.1)%N by rewrite subn_gt0.
  by case: k {e} sz => [|k] sz; [lia|case: (p.2 - p.1)%N d0 => //= d _].
move: e; rewrite -sz iotaD pm => /eqP; rewrite eqseq_cat ?size_iota // => /andP[_ /eqP].
rewrite subnKC -?pm ?(ltnW lt) // => e; have [ap lo hi] := IH _ _ al e; split.
- by split=> // q /lo.
- by move=> q [<- //|/lo]; lia.
- by move=> q [<-|/hi]; lia.
Qed.

Lemma col_sum_gen (ind : seq (nat * nat)) : all (fun p : nat * nat => p.1 < p.2)%N ind ->
  flatten [seq iota p.1 (p.2 - p.1) | p <- ind] = iota 0 n ->
  \sum_(be <- ind) col_slice be U *m dag (col_slice be U) = 1%:M.
Proof.
move=> lt fl; have [_ _ hi] := consecutive lt fl.
pose w (i : nat) : 'M[C]_n := if insub i is Some z then col z U *m dag (col z U) else 0.
have wE be : List.In be ind -> col_slice be U *m dag (col_slice be U) = \sum_(i <- iota be.1 (be.2 - be.1)) w i.
  move=> bi; have -> : iota be.1 (be.2 - be.1) = [seq be.1 + i | i <- index_iota 0 (be.2 - be.1)]%N by rewrite -iotaDl addn0 subn0.
  rewrite big_map big_mkord; apply/matrixP => x y.
  rewrite mxE summxE; apply: eq_bigr => i _; rewrite /w (insubT (fun k => k < n)%N (pos_lt (hi _ bi) i)).
  rewrite [RHS]mxE big_ord1 ![dag _ _ _]mxE ![_^T _ _]mxE !(col_sliceE (hi _ bi)) [X in _ = X * _]mxE [X in _ = _ * conjc X]mxE //.
have -> : \sum_(be <- ind) col_slice be U *m dag (col_slice be U) = \sum_(i <- flatten [seq iota p.1 (p.2 - p.1) | p <- ind]) w i.
  by rewrite big_flatten /= big_map big_seq [RHS]big_seq; apply: eq_bigr => be /In_mem /wE.
rewrite fl; have -> : iota 0 n = index_iota 0 n by rewrite /index_iota subn0.
rewrite big_mkord -uU; apply/matrixP => x y; rewrite summxE mxE.
apply: eq_bigr => i _; rewrite /w valK mxE big_ord1 ![dag _ _ _]mxE ![_^T _ _]mxE [X in X * _ = _]mxE [X in _ * conjc X = _]mxE //.
Qed.

Definition spread be (Q : seq (rect F (be.2 - be.1))) : seq (rect F n) := [seq mkr (col_slice be U *m tagged P) | P <- Q].
(* orthonormal columns which together span the space *)
Definition is_unitary k (Ps : seq (rect F k)) : Prop :=
  (forall P, List.In P Ps -> (0 < tag P)%N /\ dag (tagged P) *m tagged P = 1%:M) /\ \sum_(P <- Ps) tagged P *m dag (tagged P) = 1%:M.
Lemma in_spread (Q : forall be : nat * nat, seq (rect F (be.2 - be.1))) s P : List.In P (flatten [seq spread (Q be) | be <- s]) ->
  exists be p, [/\ List.In be s, List.In p (Q be) & P = mkr (col_slice be U *m tagged p)].
Proof.
elim: s => //= be s IH /In_cat[/In_map_iff[p pQ ->]|/IH[b [p [h1 h2 h3]]]].
  by exists be, p; split=> //; left.
by exists b, p; split=> //; right.
Qed.
Lemma spread_unitary ind (Q : forall be : nat * nat, seq (rect F (be.2 - be.1))) : all (fun p : nat * nat => p.1 < p.2)%N ind ->
  flatten [seq iota p.1 (p.2 - p.1) | p <- ind] = iota 0 n ->
  (forall be, List.In be ind -> is_unitary (Q be)) -> is_unitary (flatten [seq spread (Q be) | be <- ind]).
Proof.
move=> lt fl hQ; have [_ _ hi] := consecutive lt fl; split.
- move=> P /in_spread[be [p [bi pQ ->]]] /=; have [h _] := hQ be bi; have [p0 pp] := h p pQ; split=> //.
  by rewrite dag_mul mulmxA -(mulmxA _ (dag (col_slice be U))) slice_orth ?mulmx1 //; exact: hi.
- rewrite big_flatten big_map -[RHS](col_sum_gen lt fl) big_seq [RHS]big_seq; apply: eq_bigr => be /In_mem bi.
  rewrite /= /spread big_map; have [_ h] := hQ be bi.
  under eq_bigr do rewrite /= dag_mul mulmxA -(mulmxA (col_slice be U)).
  by rewrite -mulmx_suml -mulmx_sumr h mulmx1.
Qed.

Section Assemble.
Variables (H : 'M[C]_n) (rest : seq 'M[C]_n) (ev : seq C) (ind : seq (nat * nat)).
Hypotheses (n0 : (0 < n)%N) (sz : size ev = n) (HU : H *m U = U *m diag_mx (\row_i ev`_i)) (grp : grouped ev).
Hypotheses (gH : gapped tol H) (spl : split_list (@cabs F) tol ev = Ok ind).
Hypothesis cm : forall M, List.In M rest -> H *m M = M *m H.

Lemma ev_gap x y : (x < n)%N -> (y < n)%N -> ev`_x != ev`_y -> tol < cabs (ev`_x - ev`_y).
Proof.
have u : U \in unitmx by case/mulmx1_unit: uU.
move=> xn yn; apply: gH; [exists (col (Ordinal xn) U)|exists (col (Ordinal yn) U)]; rewrite ?unit_col //.
- by rewrite (mul_diag_col _ HU) mxE.
- by rewrite (mul_diag_col _ HU) mxE.
Qed.
Lemma indP : [/\ all (fun p : nat * nat => p.1 < p.2)%N ind,
  flatten [seq iota p.1 (p.2 - p.1) | p <- ind] = iota 0 n,
  forall p i, List.In p ind -> (p.1 <= i < p.2)%N -> ev`_i = ev`_p.1,
  forall p, List.In p ind -> (p.2 <= n)%N &
  apart (fun p q : nat * nat => ev`_p.1 != ev`_q.1) ind].
Proof.
have nz : (0 < size ev)%N by rewrite sz.
have [bs [E lt fl cl far]] := C53_split_list (@cabs F) tol nz.
have Eb : bs = ind by move: E; rewrite spl => -[].
rewrite {}Eb sz in lt fl cl far; have [ap _ hi] := consecutive lt fl.
have gap x y : (x < n)%N -> (y < n)%N -> (tol / n%:R < cabs (ev`_x - ev`_y)) = (ev`_x != ev`_y).
  by move=> xn yn; have [] := close_eq n0 (@ev_gap x y xn yn).
have same p i : List.In p ind -> (p.1 <= i < p.2)%N -> ev`_i = ev`_p.1.
  move=> pin /andP[]; elim: i => [|i IH] pi ie; first by move: pi; rewrite leqn0 => /eqP ->.
  have [<- //|ne] := eqVneq p.1 i.+1.
  have pi' : (p.1 <= i)%N by rewrite -ltnS ltn_neqAle ne.
  rewrite -IH ?(ltn_trans _ ie) //; have in_ : (i.+1 < n)%N by apply: leq_trans ie _; have := hi p pin.
  have pb : p \in ind by apply/In_mem.
  by have := cl _ _ pb pi' ie; rewrite leNgt (gap _ _ in_ (ltnW in_)) negbK => /eqP.
split=> //.
have : forall p, List.In p ind -> (p.1 < p.2 <= n)%N.
  by move=> p pin; have := hi p pin; rewrite add0n => ->; rewrite (allP lt) //; apply/In_mem.
have far' p : List.In p ind -> (p.2 < n)%N -> ev`_p.2 != ev`_p.2.-1.
  by move=> pin pn; rewrite -gap ?(leq_ltn_trans (leq_pred _)) //; apply: far => //; apply/In_mem.
move: far' same => + + rng; move: rng; move: ap; clear lt fl cl far hi E.
elim: (ind) => //= p s IH [h ap] rng far' same; split; last first.
  by apply: IH => // [q qs|q qs|q i qs]; [apply: rng|apply: far'|apply: same]; right.
move=> q qs; have pq := h _ qs; have /andP[q1 q2] := rng q (or_intror qs); have /andP[p1 p2] := rng p (or_introl erefl).
have pn : (p.2 < n)%N by apply: leq_ltn_trans pq (leq_trans q1 q2).
have b1 : (p.1 <= p.2.-1 < p.2)%N by clear -p1; lia.
apply: contra (far' p (or_introl erefl) pn) => /eqP e; rewrite (same p _ (or_introl erefl) b1).
rewrite eq_sym; apply/eqP/(grp (k := q.1)) => //; first by rewrite (ltnW p1).
by rewrite sz; apply: leq_trans q1 q2.
Qed.

Lemma slice_vals be : List.In be ind -> H *m col_slice be U = ev`_be.1 *: col_slice be U.
Proof.
move=> bi; have [_ _ same hi _] := indP; have le := hi _ bi.
apply/matrixP => x y; rewrite mxE; under eq_bigr do rewrite col_sliceE.
have /matrixP /(_ x (pos le y)) := HU; rewrite mul_mx_diag [LHS]mxE => ->.
by rewrite !mxE (insubT (fun k => k < n)%N (pos_lt le y)) mulrC (same be) // pos_in.
Qed.
Lemma ev_ne be (x z : 'I_n) : List.In be ind -> (be.1 <= x < be.2)%N = false -> (be.1 <= z < be.2)%N -> ev`_x != ev`_z.
Proof.
move=> bi xb zb; have [lt fl same hi ap] := indP.
have [q qi xq] : exists2 q, q \in ind & (q.1 <= x < q.2)%N.
  have : (x : nat) \in iota 0 n by rewrite mem_iota /=.
  rewrite -fl => /flattenP[_ /mapP[q qi ->]]; rewrite mem_iota subnKC ?(ltnW (allP lt _ qi)) // => h.
  by exists q.
have qi' := proj2 (In_mem q ind) qi; rewrite (same q _ qi' xq) (same be _ bi zb).
by apply: (apart_in ap _ qi' bi) => [u v|e]; [rewrite eq_sym|rewrite -e xq in xb].
Qed.
Lemma off_ev M (x z : 'I_n) : H *m M = M *m H -> ev`_x != ev`_z -> (dag U *m M *m U) x z = 0.
Proof.
move=> hM ne; have HU' := HU; set D := diag_mx (\row_i ev`_i) in HU'.
have UH : dag U *m H = D *m dag U.
  by rewrite -[LHS]mulmx1 -uU mulmxA -(mulmxA _ H) HU' !mulmxA (unitaryC uU) mul1mx.
have : D *m (dag U *m M *m U) = (dag U *m M *m U) *m D.
  by rewrite !mulmxA -UH -(mulmxA _ H) hM -!mulmxA HU' !mulmxA.
move: (dag U *m M *m U) => T /matrixP /(_ x z).
by rewrite mul_mx_diag mul_diag_mx !mxE mulrC => /eqP; rewrite -subr_eq0 -mulrBr mulf_eq0 subr_eq0 (negPf ne) orbF => /eqP.
Qed.
Lemma slice_act1 M be : H *m M = M *m H -> List.In be ind ->
  M *m col_slice be U = col_slice be U *m block_slice be (dag U *m M *m U).
Proof.
move=> hM bi; have [_ _ _ hi _] := indP.
by apply: slice_act => [|x z xb zb]; [exact: hi|apply: off_ev => //; exact: ev_ne bi xb zb].
Qed.
Lemma slice_act2 M be : H *m M = M *m H -> List.In be ind ->
  dag M *m col_slice be U = col_slice be U *m dag (block_slice be (dag U *m M *m U)).
Proof.
move=> hM bi; have [_ _ _ hi _] := indP; rewrite dag_block; last exact: hi.
apply: slice_act => [|x z xb zb]; first exact: hi.
have -> : dag U *m dag M *m U = dag (dag U *m M *m U) by rewrite !dag_mul dagK mulmxA.
by rewrite dagE off_ev ?conjc0 // eq_sym; exact: ev_ne bi xb zb.
Qed.
Lemma col_sum : \sum_(be <- ind) col_slice be U *m dag (col_slice be U) = 1%:M.
Proof. by have [lt fl _ _ _] := indP; exact: col_sum_gen. Qed.

Lemma spread_diag (Q : forall be : nat * nat, seq (rect F (be.2 - be.1))) :
  (forall be, List.In be ind -> is_diag [seq block_slice be (dag U *m M *m U) | M <- rest] (Q be)) ->
  is_diag (H :: rest) (flatten [seq spread (Q be) | be <- ind]).
Proof.
move=> hQ; have [lt fl same hi ap] := indP.
have act be M : List.In be ind -> List.In M rest -> M *m col_slice be U = col_slice be U *m block_slice be (dag U *m M *m U).
  by move=> bi Mr; apply: slice_act1 => //; exact: cm.
have actP be P : List.In be ind -> List.In P (Q be) -> H *m (col_slice be U *m tagged P) = ev`_be.1 *: (col_slice be U *m tagged P).
  by move=> bi _; rewrite mulmxA slice_vals // -scalemxAl.
have actM be (P : rect F (be.2 - be.1)) M c : List.In be ind -> List.In M rest -> block_slice be (dag U *m M *m U) *m tagged P = c *: tagged P ->
  M *m (col_slice be U *m tagged P) = c *: (col_slice be U *m tagged P).
  by move=> bi Mr e; rewrite mulmxA act // -mulmxA e -scalemxAr.
have inP P := @in_spread Q ind P.
have [h1 h2] : is_unitary (flatten [seq spread (Q be) | be <- ind]).
  by apply: spread_unitary => // be /hQ[].
split=> //.
- move=> P M /inP[be [p [bi pQ ->]]] [<-|Mr]; first by exists ev`_be.1; exact: actP.
  have [_ _ h _] := hQ be bi; have [|c e] := h p (block_slice be (dag U *m M *m U)) pQ; first by apply/In_map_iff; exists M.
  by exists c; exact: actM.
- have sp be : List.In be ind -> apart (separated (H :: rest)) (spread (Q be)).
    move=> bi; have [_ _ _ h] := hQ be bi; apply: apart_map h => P P' [_ /In_map_iff[M Mr ->] [c [c' [ne e e']]]].
    by exists M; [right|exists c, c'; split=> //; exact: actM].
  have gen s : (forall be, List.In be s -> List.In be ind) -> apart (fun p q : nat * nat => ev`_p.1 != ev`_q.1) s ->
      apart (separated (H :: rest)) (flatten [seq spread (Q be) | be <- s]).
    elim: s => //= be s IH sub [hd aps]; apply: apart_cat; first by apply/sp/sub; left.
      by apply: IH => // b bs; apply: sub; right.
    move=> x y /In_map_iff[p pQ ->] /in_spread[b [q [bs qQ ->]]].
    have bi : List.In be ind by apply: sub; left.
    have bi' : List.In b ind by apply: sub; right.
    by exists H; [left|exists ev`_be.1, ev`_b.1; split; [exact: hd|exact: actP|exact: actP]].
  exact: gen.
Qed.
End Assemble.

(* the blocks of a matrix which commutes with the first one *)
Lemma slice_inj be p (A B : 'M[C]_(be.2 - be.1, p)) : (be.2 <= n)%N -> col_slice be U *m A = col_slice be U *m B -> A = B.
Proof. by move=> le /(congr1 (mulmx (dag (col_slice be U)))); rewrite !mulmxA slice_orth // !mul1mx. Qed.
End Blocks.

Definition commuting n (mats : seq 'M[C]_n) := forall A B, List.In A mats -> List.In B mats -> A *m B = B *m A.
(* what the documentation promises: success exactly for commuting matrices *)
Definition outcome n (mats : seq 'M[C]_n) (r : res (seq (rect F n))) : Prop :=
  match r with Ok Ps => is_diag mats Ps | Err e => e = ValueError /\ ~ commuting mats end.
Local Notation sdiag k := (simult_rec tol eigh eig qr components argsort k).
Lemma simult_recP k n (mats : seq 'M[C]_n) : (0 < n)%N -> size mats = k -> (0 < k)%N ->
  (forall H, List.In H mats -> normal H /\ gapped tol H) ->
  outcome mats (sdiag k mats).
Proof.
elim: k n mats => // k IH n [//|H rest] n0 [szr] _ nm /=.
case: ifP => [/eqP n1|_].
  subst n; split=> /=.
  - by move=> P [<-|//] /=; rewrite dag1 mulmx1.
  - by rewrite big_seq1 /= dag1 mulmx1.
  - by move=> P M [<-|//] _ /=; exists (M 0 0); rewrite mulmx1 {1}[M]mx11_scalar scalemx1.
  - by split.
have [nH gH] := nm H (or_introl erefl).
have [[ev U] [-> /= sz uU HU grp]] := grouped_diagP n0 nH gH.
have ev0 : (0 < size ev)%N by rewrite sz.
have [ind [spl _ _ _ _]] := C53_split_list (@cabs F) tol ev0; rewrite spl /=.
have [lt fl same hi ap] := indP uU n0 sz HU grp gH spl.
case E : rest => [|M0 rest'].
  pose Q (be : nat * nat) : seq (rect F (be.2 - be.1)) := [:: mkr 1%:M].
  have -> : [seq mkr (col_slice be U) | be <- ind] = flatten [seq spread U (Q be) | be <- ind].
    by elim: (ind) => //= be s ->; rewrite /= mulmx1.
  apply: (spread_diag uU n0 sz HU grp gH spl) => // be bi; split=> /=.
  - move=> P [<-|//] /=; rewrite dag1 mulmx1; split=> //.
    by rewrite subn_gt0 (allP lt) //; apply/In_mem.
  - by rewrite big_seq1 /= dag1 mulmx1.
  - by move=> P M _ [].
  - by split.
rewrite -E; case: ifP => [/allPn[M Mr /eqP ne]|/negbFE/allP cmH'].
  by split=> // cm; apply/ne/cm; [left|right; apply/In_mem].
have cmH M : List.In M rest -> H *m M = M *m H by move=> /In_mem /cmH' /eqP.
pose R be := [seq block_slice be (dag U *m M *m U) | M <- rest].
have sub be : List.In be ind -> outcome (R be) (sdiag k (R be)).
  move=> bi; have le := hi be bi; apply: IH.
  - by rewrite subn_gt0 (allP lt) //; apply/In_mem.
  - by rewrite size_map.
  - by rewrite -szr E.
  - move=> _ /In_map_iff[M Mr ->]; have [nM gM] := nm M (or_intror Mr).
    have e := slice_act1 uU n0 sz HU grp gH spl (cmH M Mr) bi.
    have e' := slice_act2 uU n0 sz HU grp gH spl (cmH M Mr) bi.
    move: (block_slice _ _) e e' => B e e'; split.
      by apply: (slice_inj uU le); rewrite !mulmxA -e -e' -(mulmxA M) -e' -(mulmxA (dag M)) -e !mulmxA nM.
    move=> a b [v v0 ev1] [w w0 ew]; apply: gM.
      exists (col_slice be U *m v); last by rewrite mulmxA e -mulmxA ev1 scalemxAr.
      by apply: contra v0 => /eqP z; apply/eqP/(slice_inj uU le); rewrite z mulmx0.
    exists (col_slice be U *m w); last by rewrite mulmxA e -mulmxA ew scalemxAr.
    by apply: contra w0 => /eqP z; apply/eqP/(slice_inj uU le); rewrite z mulmx0.
have cR be : List.In be ind -> commuting (H :: rest) -> commuting (R be).
  move=> bi cm _ _ /In_map_iff[A Ar ->] /In_map_iff[B Br ->]; have le := hi be bi.
  have eA := slice_act1 uU n0 sz HU grp gH spl (cmH A Ar) bi.
  have eB := slice_act1 uU n0 sz HU grp gH spl (cmH B Br) bi.
  apply: (slice_inj uU le); rewrite !mulmxA -eA -eB -(mulmxA A) -(mulmxA B) -eA -eB !mulmxA.
  by rewrite (cm A B) //; right.
pose Q be : seq (rect F (be.2 - be.1)) := if sdiag k (R be) is Ok Q then Q else [::].
set f := fun be : nat * nat => _; have [okf|[be [e [bi fe ->]]]] := map_resE f [::] ind.
  rewrite (@map_resP _ _ _ (fun be => spread U (Q be))) => [|be bi].
    apply: (spread_diag uU n0 sz HU grp gH spl cmH) => be bi; have := okf be bi; rewrite /f -/(R be) /Q.
    by have := sub be bi; case: (sdiag k (R be)).
  by have := okf be bi; rewrite /f -/(R be) /Q; case: (sdiag k (R be)).
move: fe (sub be bi); rewrite /f -/(R be) /=; case: (sdiag k (R be)) => // e' [<-] [-> nc]; split=> // cm.
exact/nc/cR.
Qed.

Lemma grouped_unitary n (H : 'M[C]_n) EU : grouped_diag tol eigh eig qr components argsort H = Ok EU ->
  size EU.1 = n /\ EU.2 *m dag EU.2 = 1%:M.
Proof.
rewrite /grouped_diag; case: ifP => [/eqP hH|_].
  have := eighP (esym hH); case: (eigh H) => ev U [/= uU sz _ _] [<-] /=.
  by rewrite size_map sz -adj_dag.
case: eqP => //= nH; have := eigP nH; case: (eig H) => ev U [/= sz uU _] [<-] /=.
have sym : symmetric (@con F tol n ev).
  by move=> x y; rewrite /con /cabs; congr (Num.sqrt _ < _); rewrite -opprB !raddfN /= !sqrrN.
have [szc _] := compP sym; set cs := components _ in szc *; have [pm _] := argP cs; rewrite szc in pm.
have [AE uS] := perm_colsE U pm; split; first by rewrite size_map (perm_size pm) size_iota.
by have [] := qrP (_ : perm_cols (argsort cs) U \in unitmx); rewrite ?AE ?unitmx_mul ?uU.
Qed.
Lemma simult_unitary k n (mats : seq 'M[C]_n) Ps : sdiag k mats = Ok Ps -> is_unitary Ps.
Proof.
elim: k n mats Ps => // k IH n [//|H rest] Ps /=.
case: ifP => [/eqP n1|_].
  case=> <-; subst n; split=> /=; first by move=> P [<-|//] /=; rewrite dag1 mulmx1.
  by rewrite big_seq1 /= dag1 mulmx1.
case E : (grouped_diag _ _ _ _ _ _ _) => [[ev U]|//]; have [/= sz uU] := grouped_unitary E.
case: (posnP (size ev)) => [z|ev0]; first by rewrite (size0nil z).
have [ind [-> lt fl _ _]] := C53_split_list (@cabs F) tol ev0; rewrite sz in fl.
cbn [Prelude.bind].
case: rest => [|M0 rest'].
  case=> <-; pose Q (be : nat * nat) : seq (rect F (be.2 - be.1)) := [:: mkr 1%:M].
  have -> : [seq mkr (col_slice be U) | be <- ind] = flatten [seq spread U (Q be) | be <- ind].
    by elim: (ind) => //= be s ->; rewrite /= mulmx1.
  apply: spread_unitary => // be bi; split=> /=.
    move=> P [<-|//] /=; rewrite dag1 mulmx1; split=> //.
    by rewrite subn_gt0 (allP lt) //; apply/In_mem.
  by rewrite big_seq1 /= dag1 mulmx1.
move: (M0 :: rest') => rest; case: ifP => // _.
pose R be := [seq block_slice be (dag U *m M *m U) | M <- rest].
pose Q be : seq (rect F (be.2 - be.1)) := if sdiag k (R be) is Ok Q then Q else [::].
set f := fun be : nat * nat => _; have [okf|[be [e [bi fe ->]]]] := map_resE f [::] ind; last by [].
rewrite (@map_resP _ _ _ (fun be => spread U (Q be))) => [[<-]|be bi].
  apply: spread_unitary => // be bi; have := okf be bi; rewrite /f -/(R be) /Q.
  by case D : (sdiag k (R be)) => [q|//] _; exact: IH D.
by have := okf be bi; rewrite /f -/(R be) /Q; case: (sdiag k (R be)).
Qed.
(* whenever it returns, whatever the tolerance, the columns form a unitary matrix *)
Theorem C77_unitary n (mats : seq 'M[C]_n) Ps : simult_diag tol eigh eig qr components argsort mats = Ok Ps ->
  is_unitary Ps.
Proof. exact: simult_unitary. Qed.

(* simult_diag diagonalises every commuting normal family *)
Theorem C77_simult_diag n (mats : seq 'M[C]_n) : (0 < n)%N -> mats <> [::] ->
  (forall H, List.In H mats -> normal H /\ gapped tol H) -> commuting mats ->
  exists2 Ps, simult_diag tol eigh eig qr components argsort mats = Ok Ps & is_diag mats Ps.
Proof.
move=> n0 ne nm cm; have := @simult_recP (size mats) n mats n0 erefl; rewrite /simult_diag.
have s0 : (0 < size mats)%N by case: (mats) ne.
by move=> /(_ s0 nm); case: (simult_rec _ _ _ _ _ _ _ _) => [Ps|e [_ /(_ cm)]] //; exists Ps.
Qed.
(* and raises ValueError for every family which does not commute *)
Theorem C77_not_commuting n (mats : seq 'M[C]_n) : (0 < n)%N -> mats <> [::] ->
  (forall H, List.In H mats -> normal H /\ gapped tol H) -> ~ commuting mats ->
  simult_diag tol eigh eig qr components argsort mats = Err ValueError.
Proof.
move=> n0 ne nm nc; have := @simult_recP (size mats) n mats n0 erefl; rewrite /simult_diag.
have s0 : (0 < size mats)%N by case: (mats) ne.
move=> /(_ s0 nm); case: (simult_rec _ _ _ _ _ _ _ _) => [Ps|e [-> //]] [_ sm eg _]; case: nc => A B Am Bm.
rewrite -[LHS]mulmx1 -[RHS]mulmx1 -sm !mulmx_sumr.
have : forall P, List.In P Ps -> A *m B *m (tagged P *m dag (tagged P)) = B *m A *m (tagged P *m dag (tagged P)).
  move=> P Pin; have [a ea] := eg P A Pin Am; have [b eb] := eg P B Pin Bm.
  by rewrite !mulmxA -(mulmxA A) -(mulmxA B) ea eb -!scalemxAr ea eb !scalerA mulrC.
elim: (Ps) => [|P s IH] h; first by rewrite !big_nil.
by rewrite !big_cons h ?IH // => [Q Qs|]; [apply: h; right|left].
Qed.
(* a first matrix larger than 1x1 which is not normal is rejected *)
Theorem C77_not_normal n (H : 'M[C]_n) rest : n != 1%N -> ~ normal H -> simult_diag tol eigh eig qr components argsort (H :: rest) = Err ValueError.
Proof.
move=> n1 nH; rewrite /simult_diag /= (negPf n1) /grouped_diag; case: ifP => [/eqP e|_]; first by case: nH; rewrite /normal -e.
by case: eqP.
Qed.
(* the columns of different blocks are orthogonal *)
Theorem C77_orthogonal n (P P' : rect F n) s1 s2 s3 : is_unitary (s1 ++ P :: s2 ++ P' :: s3) -> dag (tagged P) *m tagged P' = 0.
Proof.
case=> h sm; have [_ PP] : (0 < tag P)%N /\ dag (tagged P) *m tagged P = 1%:M by apply: h; apply/In_cat; right; left.
pose w (Q : rect F n) : C := \tr (dag (dag (tagged Q) *m tagged P) *m (dag (tagged Q) *m tagged P)).
have w0 Q : 0 <= w Q.
  rewrite /w; move: (_ *m tagged P) => M; rewrite /mxtrace sumr_ge0 // => i _; rewrite mxE sumr_ge0 // => j _.
  by rewrite dagE mulrC -sqr_normc exprn_ge0.
have ws s : 0 <= \sum_(Q <- s) w Q by apply: sumr_ge0.
have : \sum_(Q <- s1 ++ P :: s2 ++ P' :: s3) w Q = w P.
  have -> : w P = \tr (dag (tagged P) *m (\sum_(Q <- s1 ++ P :: s2 ++ P' :: s3) tagged Q *m dag (tagged Q)) *m tagged P).
    by rewrite sm mulmx1 /w PP dag1 mulmx1.
  rewrite mulmx_sumr mulmx_suml raddf_sum; apply: eq_bigr => Q _.
  by rewrite /w dag_mul dagK !mulmxA.
rewrite big_cat big_cons big_cat big_cons /= addrCA -[RHS]addr0 => /addrI /eqP.
rewrite paddr_eq0 ?ws ?addr_ge0 ?ws ?w0 // => /andP[_]; rewrite paddr_eq0 ?addr_ge0 ?ws ?w0 // => /andP[_].
rewrite paddr_eq0 ?ws ?w0 // => /andP[/eqP /tr_dag_eq0 z _].
by rewrite -[LHS]dagK dag_mul dagK z dag0.
Qed.

(* ---- examples ---- *)
Definition sx : 'M[C]_2 := mx2 0 1 1 0.
Lemma mx2_vals a b c d x : eigenval (mx2 a b c d) x -> exists u w, [/\ (u != 0) || (w != 0), a * u + b * w = x * u & c * u + d * w = x * w].
Proof.
case=> v v0 /matrixP e; exists (v 0 0), (v 1 0); have /matrix0Pn[i [j nz]] := v0; split.
- by move: nz; rewrite (ord1 j); case: (ord2P i) => ->-> //; rewrite orbT.
- by have := e 0 0; rewrite !mxE !big_ord_recl big_ord0 !mxE /= addr0; congr (_ + _ * v _ _ = _); apply/val_inj.
- by have := e 1 0; rewrite !mxE !big_ord_recl big_ord0 !mxE /= addr0; congr (_ + _ * v _ _ = _); apply/val_inj.
Qed.
Lemma sx_vals x : eigenval sx x -> x = 1 \/ x = -1.
Proof.
case/mx2_vals=> u [w [nz]]; rewrite !mul0r !mul1r add0r addr0 => ew eu.
have u0 : u != 0 by apply/eqP => z; move: nz ew; rewrite z mulr0 => /orP[/eqP //|/eqP nw] /nw.
have : (x - 1) * (x + 1) * u == 0 by rewrite -subr_sqr mulrBl expr2 -mulrA -ew -eu expr1n mul1r subrr.
by rewrite !mulf_eq0 (negPf u0) orbF subr_eq0 addr_eq0 => /orP[] /eqP ->; [left|right].
Qed.
Lemma diag_vals a d x : eigenval (mx2 a 0 0 d) x -> x = a \/ x = d.
Proof.
case/mx2_vals=> u [w [nz]]; rewrite !mul0r addr0 add0r => eu ew.
by case/orP: nz => z; [left; exact/esym/(mulIf z)|right; exact/esym/(mulIf z)].
Qed.
Lemma hermitian_normal n (H : 'M[C]_n) : dag H = H -> normal H. Proof. by rewrite /normal => ->. Qed.
Lemma cabs_re (x : F) : @cabs F (real_complex F x) = `|x|.
Proof. by rewrite /cabs /= expr0n addr0 sqrtr_sqr. Qed.
Lemma nat_re k : k%:R = real_complex F k%:R. Proof. by rewrite rmorph_nat. Qed.
Lemma cabs2 : cabs (1 - (-1) : C) = 2%:R.
Proof. by rewrite opprK -[1 + 1]/(2%:R) nat_re cabs_re normr_nat. Qed.
Lemma cabs2' : cabs (-1 - 1 : C) = 2%:R.
Proof. by rewrite -opprD -[1 + 1]/(2%:R) nat_re -rmorphN cabs_re normrN normr_nat. Qed.
Lemma sx_gapped : tol < 2%:R -> gapped tol sx.
Proof.
by move=> t2 a b /sx_vals[] -> /sx_vals[] -> //; rewrite ?eqxx // ?cabs2 ?cabs2'.
Qed.
(* the identity and sigma_x: two blocks of one column each *)
Example C77_example : tol < 2%:R ->
  exists P P' : rect F 2, simult_diag tol eigh eig qr components argsort [:: 1%:M; sx] = Ok [:: P; P'] /\ tag P = 1%N /\ tag P' = 1%N.
Proof.
move=> t2; have [] := @C77_simult_diag 2 [:: 1%:M; sx] isT.
- by [].
- move=> H [<-|[<-|//]]; split; [by rewrite /normal dag1| |apply: hermitian_normal; by rewrite mx2_dag conjc0 conjc1|exact: sx_gapped].
  have -> : 1%:M = mx2 1 0 0 1 :> 'M[C]_2 by rewrite [LHS]mx2E !mxE.
  by move=> a b /diag_vals[] -> /diag_vals[] ->; rewrite eqxx.
- by move=> A B [<-|[<-|//]] [<-|[<-|//]]; rewrite ?mul1mx ?mulmx1.
move=> Ps -> [h sm eg _].
have tg : (\sum_(P <- Ps) tag P)%N = 2%N.
  have := congr1 mxtrace sm; rewrite raddf_sum mxtrace1 /= => e.
  apply/eqP; rewrite -(eqr_nat [numDomainType of C]) natr_sum -e; apply/eqP.
  elim: (Ps) h => [|P s IH] h; first by rewrite !big_nil.
  rewrite !big_cons -IH => [|Q Qs]; last by apply: h; right.
  by have [_ PP] := h P (or_introl erefl); rewrite mxtrace_mulC PP mxtrace1.
case: Ps h sm eg tg => [|P [|P' [|P2 s]]] h sm eg.
- by rewrite big_nil.
- have [c e] := eg P sx (or_introl erefl) (or_intror (or_introl erefl)).
  move: sm; rewrite big_seq1 => sm _; have := congr1 (mulmx sx) sm; rewrite mulmxA e -scalemxAl sm mulmx1.
  by move=> /matrixP /(_ 0 1); rewrite !mxE /= mulr0 => /eqP; rewrite eq_sym oner_eq0.
- rewrite !big_cons big_nil addn0 => t; have [p0 _] := h P (or_introl erefl); have [p1 _] := h P' (or_intror (or_introl erefl)).
  by exists P, P'; split=> //; clear -t p0 p1; lia.
- rewrite !big_cons => t; have [p0 _] := h P (or_introl erefl); have [p1 _] := h P' (or_intror (or_introl erefl)).
  have [p2 _] := h P2 (or_intror (or_intror (or_introl erefl))).
  by clear -t p0 p1 p2; lia.
Qed.
(* sigma_x and sigma_z do not commute *)
Example C77_example_error : tol < 2%:R -> simult_diag tol eigh eig qr components argsort [:: sx; mx2 1 0 0 (-1)] = Err ValueError.
Proof.
move=> t2; apply: C77_not_commuting => //.
  move=> H [<-|[<-|//]]; split; try by apply: hermitian_normal; rewrite mx2_dag ?rmorphN ?conjc0 ?conjc1 //= ?oppr0.
    exact: sx_gapped.
  by move=> a b /diag_vals[] -> /diag_vals[] ->; rewrite ?eqxx // ?cabs2 ?cabs2'.
move=> cm; have := cm _ _ (or_introl erefl) (or_intror (or_introl erefl)).
rewrite !mx2_mul => /mx2_inj[_ + _ _]; rewrite ?mulr0 ?mul0r ?mul1r ?mulr1 ?add0r ?addr0 => /eqP.
by rewrite -subr_eq0 -opprD oppr_eq0 -[1 + 1]/(2%:R) pnatr_eq0.
Qed.

(* the gap is needed: eigenvalues that differ by tol/2 are put into one block, on which the matrix is not a multiple of the identity *)
Theorem C77_gap_refuted : exists H : 'M[C]_2, normal H /\
  forall Ps, simult_diag tol eigh eig qr components argsort [:: H] = Ok Ps -> ~ is_diag [:: H] Ps.
Proof.
pose t : C := real_complex F (tol / 2%:R); have t2 : 0 < tol / 2%:R by rewrite divr_gt0 ?ltr0n.
pose H := mx2 0 0 0 t; have hH : dag H = H.
  by rewrite mx2_dag conjc0; congr mx2; rewrite /t conjc_real.
exists H; split; first exact: hermitian_normal.
rewrite /simult_diag /= /grouped_diag hH eqxx.
have := eighP hH; case: (eigh H) => ev U [/= uU sz so e].
have {}uU : U *m dag U = 1%:M by rewrite -adj_dag.
have u : U \in unitmx by case/mulmx1_unit: uU.
have vals (i : 'I_2) : ev`_i = 0 \/ ev`_i = tol / 2%:R.
  have : eigenval H (real_complex F ev`_i) by exists (col i U); rewrite ?unit_col // (mul_diag_col _ e) mxE.
  by case/diag_vals => [[->]|[->]]; [left|right].
have cl : cabs (real_complex F ev`_1 - real_complex F ev`_0) <= tol / 2%:R.
  rewrite -rmorphB cabs_re.
  by case: (vals (Ordinal (isT : 0 < 2)%N)) => /= ->; case: (vals (Ordinal (isT : 1 < 2)%N)) => /= ->;
    rewrite ?subr0 ?sub0r ?subrr ?normrN ?normr0 ?ger0_norm ?(ltW t2).
case: ev sz {so e vals} cl => [|x [|y [|? ?]]] //= _ cl Ps.
rewrite /boundaries /= ltNge cl /= => -[<-] [_ _ eg _].
have [c] := eg _ H (or_introl erefl) (or_introl erefl).
have le : ((0%N, 2%N).2 <= 2)%N by [].
have -> : tagged (mkr (col_slice (0%N, 2%N) U)) = U.
  by apply/matrixP => a b /=; rewrite (col_sliceE le); congr (U _ _); apply/val_inj.
move=> /(congr1 (mulmx^~ (dag U))); rewrite -mulmxA -scalemxAl uU mulmx1 => /matrixP E.
have := E 0 0; have := E 1 1; rewrite !mxE /= mulr1 => <- /esym /eqP.
by move=> /eqP[/eqP]; rewrite gt_eqF.
Qed.
End Simult.

Print Assumptions C77_simult_diag.
Print Assumptions C77_gap_refuted.
