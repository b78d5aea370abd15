(* The contracts of the library calls used in the theorems about nullspace, simult_diag,
   kwant_rmt and the Lie algebra functions can be met. *)
From mathcomp Require Import all_ssreflect all_algebra all_fingroup.
From mathcomp Require Import complex.
From Verif Require Import Rmt PropRmt PropCircular Prelude LinSpan Star Nullspace SymBlocks PropBlocks PropLie SimultDiag PropSimult Oracles.

Set Implicit Arguments.
Unset Strict Implicit.
Unset Printing Implicit Defensive.
Import Order.TTheory GRing.Theory Num.Theory.
Local Open Scope ring_scope.

Lemma fun_of (A : nat -> Type) (B : nat -> choiceType) (P : forall n, A n -> pred (B n)) :
  (forall n (a : A n), exists b, P n a b) -> exists f : forall n, A n -> B n, forall n a, P n a (f n a).
Proof. by move=> H; exists (fun n a => xchoose (H n a)) => n a; apply: xchooseP. Qed.

Section Sorted.
Variables (F : rcfType) (K : fieldType) (st : star F K).
Lemma adj_perm n (p : 'S_n) : adj st (perm_mx p) = perm_mx p^-1.
Proof.
apply/matrixP => i j; rewrite adjE !mxE -(inj_eq (@perm_inj _ p) (p^-1 i)%g j) permKV [i == _]eq_sym.
by rewrite rmorph_nat.
Qed.
Lemma sorted_eigh n (H U : 'M[K]_n) (l : 'rV[F]_n) : Star.unitary st U -> H *m U = U *m diag_mx (map_mx (emb st) l) ->
  exists lam V, is_eigh st H lam V.
Proof.
move=> uU E; pose t := [tuple l 0 i | i < n]; pose s := sort <=%R t.
have /tuple_permP [p Ep] : perm_eq (sort_tuple <=%R t) t by rewrite /= perm_sort.
have nth_s i : s`_(val i) = l 0 (p i).
  by rewrite /s -[sort _ _]/(tval (sort_tuple <=%R t)) Ep -tnth_nth !tnth_mktuple.
exists s, (U *m perm_mx p^-1); split.
- by rewrite /Star.unitary adjM mulmxA -(mulmxA U) adj_perm -perm_mxM mulgV perm_mx1 mulmx1.
- by rewrite size_sort size_tuple.
- exact: sort_sorted le_total _.
rewrite mulmxA E -!mulmxA; congr (_ *m _); apply/matrixP => i j.
rewrite mul_diag_mx mxE mul_mx_diag mxE !mxE (nth_s j).
case: eqVneq => [<-|_]; last by rewrite mulr0 mul0r.
by rewrite permKV mulr1 mul1r.
Qed.
End Sorted.

Section Complex.
Variable F : rcfType.
Local Notation C := (F[i]).
Local Notation cst := (complex_star F).

Lemma spectral n (H : 'M[C]_n) : normal H ->
  exists2 U : 'M[C]_n, U *m dag U = 1%:M & exists D : 'rV[C]_n, H *m U = U *m diag_mx D.
Proof.
move=> nH; have [U uU T] := schur H; have uU' : U *m dag U = 1%:M by rewrite -adj_dag.
rewrite adj_dag in T; exists U => //; set T' := dag U *m H *m U in T.
have nT : normal T'.
  have UU := mulmx1C uU'; have d : dag T' = dag U *m dag H *m U by rewrite /T' !dag_mul dagK mulmxA.
  rewrite /normal d /T' !mulmxA -(mulmxA (dag U *m H)) uU' mulmx1 -(mulmxA (dag U *m dag H)) uU' mulmx1.
  by congr (_ *m _); rewrite -!mulmxA nH.
have off := triang_normal nT T; exists (\row_i T' i i).
have -> : diag_mx (\row_i T' i i) = T'.
  apply/matrixP => i j; rewrite mxE [(\row__ _) _ _]mxE; case: eqVneq => [->|/off -> //]; exact: mulr1n.
by rewrite /T' !mulmxA uU' mul1mx.
Qed.

Lemma hermitian_real n (H U : 'M[C]_n) (D : 'rV[C]_n) : dag H = H -> U *m dag U = 1%:M -> H *m U = U *m diag_mx D ->
  forall i, D 0 i = (complex.Re (D 0 i))%:C%C.
Proof.
move=> hH uU E i; have UU := mulmx1C uU.
have E1 : dag U *m H *m U = diag_mx D by rewrite -mulmxA E mulmxA UU mul1mx.
have : dag (diag_mx D) = diag_mx D by rewrite -E1 !dag_mul dagK hH mulmxA.
move=> /matrixP /(_ i i); rewrite dagE mxE eqxx mulr1n; case: (D 0 i) => a b [] /eqP.
by rewrite eq_sym -subr_eq0 opprK -mulr2n mulrn_eq0 /= => /eqP ->.
Qed.

(* la.eigh *)
Lemma eigh_exists n (H : 'M[C]_n) : dag H = H -> exists lam V, is_eigh cst H lam V.
Proof.
move=> hH; have [U uU [D E]] : exists2 U : 'M[C]_n, U *m dag U = 1%:M & exists D : 'rV[C]_n, H *m U = U *m diag_mx D.
  by apply: spectral; rewrite /normal hH.
have re := hermitian_real hH uU E; apply: (@sorted_eigh _ _ cst _ _ U (\row_i complex.Re (D 0 i))).
  by rewrite /Star.unitary adj_dag.
by rewrite E; congr (_ *m diag_mx _); apply/rowP => i; rewrite !mxE {1}re.
Qed.

(* la.eigh for Hermitian, la.eig for normal matrices, la.qr, connected_components, np.argsort *)
Theorem C77_contracts : exists (eigh : forall n, 'M[C]_n -> seq F * 'M[C]_n) (eig : forall n, 'M[C]_n -> seq C * 'M[C]_n)
    (qr : forall n, 'M[C]_n -> 'M[C]_n) (components : forall n, rel 'I_n -> seq nat) (argsort : seq nat -> seq nat),
  [/\ eigh_contract eigh, eig_contract eig, PropSimult.qr_contract qr, components_contract components & argsort_contract argsort].
Proof.
have [eigh P1] : exists f : forall n, 'M[C]_n -> seq F * 'M[C]_n, forall n (H : 'M[C]_n), (dag H == H) ==>
    [&& (f n H).2 *m adj cst (f n H).2 == 1%:M, size (f n H).1 == n, sorted <=%R (f n H).1 &
        H *m (f n H).2 == (f n H).2 *m diag_mx (\row_i emb cst (f n H).1`_i)].
  apply: (@fun_of (fun n => 'M[C]_n) (fun n => [choiceType of seq F * 'M[C]_n]) (fun n H p => (dag H == H) ==>
    [&& p.2 *m adj cst p.2 == 1%:M, size p.1 == n, sorted <=%R p.1 & H *m p.2 == p.2 *m diag_mx (\row_i emb cst p.1`_i)])).
  move=> n H; case: eqP => [hH|_]; last by exists ([::], 0).
  by have [lam [V [h1 h2 h3 h4]]] := eigh_exists hH; exists (lam, V) => /=; apply/and4P; split=> //; apply/eqP.
have [eig P2] : exists f : forall n, 'M[C]_n -> seq C * 'M[C]_n, forall n (H : 'M[C]_n), (H *m dag H == dag H *m H) ==>
    [&& size (f n H).1 == n, (f n H).2 \in unitmx & H *m (f n H).2 == (f n H).2 *m diag_mx (\row_i (f n H).1`_i)].
  apply: (@fun_of (fun n => 'M[C]_n) (fun n => [choiceType of seq C * 'M[C]_n]) (fun n H p => (H *m dag H == dag H *m H) ==>
    [&& size p.1 == n, p.2 \in unitmx & H *m p.2 == p.2 *m diag_mx (\row_i p.1`_i)])).
  move=> n H; case: eqP => [nH|_]; last by exists ([::], 0).
  have [U uU [D E]] := spectral nH; exists ([seq D 0 i | i <- enum 'I_n], U) => /=; apply/and3P; split.
  - by rewrite size_map size_enum_ord.
  - by have [] := mulmx1_unit uU.
  apply/eqP; rewrite E; congr (_ *m diag_mx _); apply/rowP => i; rewrite mxE (nth_map i) ?size_enum_ord //.
  by rewrite nth_ord_enum.
have [qr P3] : exists f : forall n, 'M[C]_n -> 'M[C]_n, forall n (A : 'M[C]_n),
    (f n A *m adj cst (f n A) == 1%:M) && [forall i : 'I_n, forall j : 'I_n, (j < i)%N ==> ((adj cst (f n A) *m A) i j == 0)].
  apply: (@fun_of (fun n => 'M[C]_n) (fun n => [choiceType of 'M[C]_n]) (fun n A Q => (Q *m adj cst Q == 1%:M) &&
    [forall i : 'I_n, forall j : 'I_n, (j < i)%N ==> ((adj cst Q *m A) i j == 0)])).
  move=> n A; have [Q uQ T] := qr_exists cst A; exists Q; apply/andP; split; first exact/eqP.
  by apply/'forall_forallP => i j; apply/implyP => ji; apply/eqP/T.
exists eigh, eig, qr, (fun n r => [seq val (fingraph.root r i) | i <- enum 'I_n]), (fun s => sort (fun i j => nth 0%N s i <= nth 0%N s j)%N (iota 0 (size s))).
split.
- move=> n H /eqP hH; have := P1 n H; rewrite hH => /and4P [/eqP h1 /eqP h2 h3 /eqP h4]; by split.
- move=> n H nH; have := P2 n H; rewrite nH eqxx => /and3P [/eqP h1 h2 /eqP h3]; by split.
- move=> n A _; have /andP [/eqP h1 /forallP h2] := P3 n A; split; first by rewrite -adj_dag.
  by move=> i j ji; have /forallP /(_ j) := h2 i; rewrite ji adj_dag => /eqP.
- move=> n r sr; split; first by rewrite size_map size_enum_ord.
  have nthE (k : 'I_n) : nth 0%N [seq val (fingraph.root r i) | i <- enum 'I_n] k = val (fingraph.root r k).
    by rewrite (nth_map k) ?size_enum_ord // nth_ord_enum.
  move=> i j; rewrite !nthE (inj_eq val_inj).
  exact: (root_connect (sym_connect_sym sr)).
move=> s; split; first by rewrite perm_sort.
by rewrite sorted_map; apply: sort_sorted => i j; exact: leq_total.
Qed.
End Complex.

(* ---- la.svd ---- *)
Section Svd.
Variables (F : rcfType) (K : fieldType) (st : star F K).
Local Notation adj := (adj st).
Local Notation emb := (emb st).
(* a matrix other than zero has a singular value other than zero *)
Definition has_top := forall m n (A : 'M[K]_(m, n)), A != 0 ->
  exists (v : 'cV[K]_n) (a : F), [/\ norm2 st v = 1, 0 < a & adj A *m (A *m v) = emb a *: v].
Hypothesis top : has_top.

Lemma svd_exists m n (A : 'M[K]_(m, n)) : exists u s vh, is_svd st A u s vh.
Proof.
have zero m' n' : exists u s vh, is_svd st (0 : 'M[K]_(m', n')) u s vh.
  exists 1%:M, (nseq (minn m' n') 0), 1%:M; split; try exact: unitary1; rewrite ?size_nseq //.
    by rewrite all_nseq lexx orbT.
  have -> : diag_rect st m' n' (nseq (minn m' n') 0) = 0; last by rewrite mulmx0 mul0mx.
  by apply/matrixP => i j; rewrite !mxE nth_nseq if_same rmorph0 if_same.
elim: m n A => [|m IH] n A; first by rewrite [A]flatmx0; exact: zero.
case: n A => [|n] A; first by rewrite [A]thinmx0; exact: zero.
have [->|A0] := eqVneq A 0; first exact: zero.
have [v [a [nv a0 Av]]] := top A0; pose s := Num.sqrt a.
have s0 : s != 0 by rewrite lt0r_neq0 // sqrtr_gt0.
have ss : s ^+ 2 = a by rewrite sqr_sqrtr // ltW.
have es : emb s != 0 by rewrite fmorph_eq0.
have nu : norm2 st ((emb s)^-1 *: (A *m v)) = 1.
  rewrite norm2Z -fmorphV nsq_emb exprVn ss; suff -> : norm2 st (A *m v) = a by rewrite mulVf // lt0r_neq0.
  apply: (@emb_inj _ _ st); have := norm2E st (A *m v); rewrite adjM -mulmxA Av -scalemxAr norm2E nv rmorph1 scalemx1.
  by move=> /matrixP /(_ 0 0); rewrite !mxE eqxx !mulr1n.
have [U uU Eu] := completion nu; have [V uV Ev] := completion nv.
pose B : 'M[K]_(1 + m, 1 + n) := adj U *m A *m V.
have [u' [s' [vh' [uu' uvh' sz pos E]]]] := IH n (drsubmx B).
have cB : col 0 B = emb s *: delta_mx 0 0.
  rewrite /B colE -!mulmxA -colE Ev; have -> : A *m v = emb s *: col 0 U by rewrite Eu scalerA mulfV // scale1r.
  by rewrite -scalemxAr colE mulmxA (Star.unitaryC uU) // mul1mx.
have rB : row 0 B = emb s *: delta_mx 0 0.
  rewrite /B -!mulmxA row_mul; have -> : row 0 (adj U) = adj (col 0 U) by apply/matrixP => i j; rewrite !mxE.
  rewrite Eu adjZ adjM mulmxA -scalemxAl -scalemxAl -(mulmxA (adj v)).
  have -> : adj A *m A = adj (adj A *m A) by rewrite adjM adjK.
  rewrite -adjM -mulmxA Av adjZ cj_emb -scalemxAl scalerA -Ev fmorphV cj_emb -ss rmorphX expr2 mulKf //; congr (_ *: _).
  have -> : adj (col 0 V) = row 0 (adj V) by apply/matrixP => i j; rewrite !mxE.
  by rewrite -row_mul (Star.unitaryC uV) // rowE mulmx1.
exists (U *m corner u'), (s :: s'), (corner vh' *m adj V); split.
- exact: (unitary_mul uU (unitary_corner uu')).
- exact: (unitary_mul (unitary_corner uvh') (unitary_adj uV)).
- by rewrite /= sz minnSS.
- by rewrite /= sqrtr_ge0.
have EB : B = block_mx (emb s)%:M 0 0 (drsubmx B).
  exact: first_block.
have -> : A = U *m B *m adj V by rewrite /B !mulmxA uU mul1mx -mulmxA uV mulmx1.
rewrite -!mulmxA; congr (_ *m _); rewrite !mulmxA; congr (_ *m _).
have -> : diag_rect st m.+1 n.+1 (s :: s') = block_mx (emb s)%:M 0 0 (diag_rect st m n s') :> 'M[K]_(1 + m, 1 + n).
  apply/matrixP => i j; rewrite !mxE; case: (splitP i) => i' Ei; rewrite !mxE; case: (splitP j) => j' Ej; rewrite ?mxE Ei Ej ?ord1 //=.
by rewrite -[LHS]/B EB E; symmetry; apply: corner_block.
Qed.
End Svd.

Section Tops.
Variable F : rcfType.
Local Notation C := (F[i]).
Local Notation cst := (complex_star F).

Lemma col_norm n (U : 'M[C]_n) i : U *m dag U = 1%:M -> norm2 cst (col i U) = 1.
Proof.
move=> uU; apply: (@emb_inj _ _ cst); rewrite rmorph1; apply: norm2_of.
have -> : adj cst (col i U) = row i (dag U) by apply/matrixP => k l; rewrite !mxE.
rewrite colE mulmxA -row_mul (mulmx1C uU) rowE mulmx1 mul_delta_mx.
by apply/matrixP => k l; rewrite !ord1 !mxE.
Qed.

Lemma complex_top : has_top cst.
Proof.
move=> m n A A0; pose H : 'M[C]_n := dag A *m A.
have hH : dag H = H by rewrite /H dag_mul dagK.
have nH : normal H by rewrite /normal hH.
have [U uU [D E]] := spectral nH; have re := hermitian_real hH uU E.
have EU : H = U *m diag_mx D *m dag U by rewrite -E -mulmxA uU mulmx1.
have [i Di] : exists i, D 0 i != 0.
  apply/existsP; apply: contraNT A0; rewrite negb_exists => /forallP D0.
  have H0 : H = 0.
    rewrite EU (_ : diag_mx D = 0) ?mulmx0 ?mul0mx //; apply/matrixP => i j; rewrite !mxE.
    by have /negPn/eqP -> := D0 i; rewrite mul0rn.
  apply/eqP/matrixP => i j; have : col j A = 0.
    apply: (@norm2_eq0 _ _ cst); apply: (@emb_inj _ _ cst); rewrite rmorph0; apply: norm2_of.
    have -> : adj cst (col j A) = row j (dag A) by apply/matrixP => k l; rewrite !mxE.
    by rewrite colE mulmxA -row_mul -/H H0 row0 mul0mx raddf0.
  by move=> /colP /(_ i); rewrite !mxE.
pose v := col i U; have nv : norm2 cst v = 1 by exact: col_norm.
have Hv : H *m v = D 0 i *: v.
  exact: mul_diag_col.
exists v, (complex.Re (D 0 i)); split=> //; last by rewrite mulmxA adj_dag -/H Hv {1}re.
have : emb cst (complex.Re (D 0 i)) = emb cst (norm2 cst (A *m v)).
  symmetry; apply: norm2_of; rewrite adjM -mulmxA [X in _ *m X]mulmxA (adj_dag A) -/H Hv -scalemxAr.
  by rewrite norm2E nv rmorph1 scalemx1 {1}re.
move=> /(@emb_inj _ _ cst) Er; rewrite lt_neqAle Er norm2_ge0 andbT -Er eq_sym.
by apply: contraNneq Di => R0; rewrite re R0.
Qed.

Lemma real_top : has_top (real_star F).
Proof.
move=> m n A A0; pose f := [rmorphism of real_complex F]; pose B := map_mx f A.
have B0 : B != 0 by rewrite map_mx_eq0.
have [v [a [nv a0 Ev]]] := complex_top B0.
have EB : adj cst B *m B = map_mx f (A^T *m A).
  rewrite map_mxM; congr (_ *m _); apply/matrixP => i j; rewrite !mxE; exact: conjc_real.
have v0 : v != 0 by apply: contra_eq_neq nv => ->; rewrite norm2_0 eq_sym oner_eq0.
have : eigenvalue (map_mx f (A^T *m A)) (f a).
  apply/eigenvalueP; exists v^T; last by rewrite -(inj_eq (@trmx_inj _ _ _)) trmxK trmx0.
  have sy : map_mx f (A^T *m A) = (map_mx f (A^T *m A))^T by rewrite map_trmx trmx_mul trmxK.
  by rewrite sy -trmx_mul -EB -mulmxA Ev linearZ.
rewrite eigenvalue_root_char -map_char_poly fmorph_root -eigenvalue_root_char => /eigenvalueP [w Ew w0].
have w0' : w^T != 0 by rewrite -(inj_eq (@trmx_inj _ _ _)) trmxK trmx0.
exists ((emb (real_star F) (Num.sqrt (norm2 (real_star F) w^T))^-1) *: w^T), a; split=> //; first exact: normalize.
have -> : adj (real_star F) A = A^T by apply/matrixP => i j; rewrite !mxE.
have sA : A^T *m A *m w^T = a *: w^T.
  have -> : A^T *m A = (A^T *m A)^T by rewrite trmx_mul trmxK.
  by rewrite -trmx_mul Ew linearZ.
by rewrite -!scalemxAr mulmxA sA !scalerA mulrC.
Qed.
End Tops.

(* ---- la.qr of columns, la.lstsq, eigsh ---- *)
Section Columns.
Variables (F : rcfType) (K : fieldType) (st : star F K) (n : nat).
Local Notation cdot := (cdot st).
Local Notation emb := (emb st).
Local Notation id_ := [rmorphism of idfun].
Implicit Types (x v w : 'cV[K]_n) (X Y : seq 'cV[K]_n).

Lemma cdotB v w x : cdot v (w - x) = cdot v w - cdot v x. Proof. by rewrite /cdot mulmxBr !mxE. Qed.
Lemma cdotZ a v w : cdot v (a *: w) = a * cdot v w. Proof. by rewrite /cdot -scalemxAr mxE. Qed.
Lemma cdot_sum v (I : finType) (f : I -> 'cV[K]_n) : cdot v (\sum_i f i) = \sum_i cdot v (f i).
Proof. by rewrite /cdot mulmx_sumr summxE. Qed.
Lemma cdotC v w : cdot v w = Star.cj st (cdot w v).
Proof. by rewrite /cdot -[adj st v *m w](adjK st) adjM adjK adjE. Qed.
Lemma cdotvv v : cdot v v = emb (norm2 st v).
Proof. by rewrite /cdot norm2E mxE eqxx mulr1n. Qed.

Definition along Y x := \sum_(i < size Y) cdot Y`_i x *: Y`_i.
Fixpoint columns_qr X : seq 'cV[K]_n :=
  if X is x :: X' then
    let Y := columns_qr X' in let w := x - along Y x in
    if w == 0 then Y else rcons Y (emb (Num.sqrt (norm2 st w))^-1 *: w)
  else [::].

Lemma along_span Y x : span id_ Y (along Y x).
Proof. by exists (fun i => cdot Y`_i x). Qed.
Lemma along_ortho Y x j : Nullspace.orthonormal st Y -> (j < size Y)%N -> cdot Y`_j (x - along Y x) = 0.
Proof.
move=> O lj; rewrite cdotB cdot_sum (bigD1 (Ordinal lj)) //= cdotZ O // eqxx mulr1 big1 ?addr0 ?subrr // => i.
by rewrite -(inj_eq val_inj) /= => /negPf ne; rewrite cdotZ O // eq_sym ne mulr0.
Qed.

Lemma columns_qrP X : Nullspace.orthonormal st (columns_qr X) /\ forall v, span id_ (columns_qr X) v <-> span id_ X v.
Proof.
elim: X => [|x X [O S]] //=; set Y := columns_qr X in O S *; set w := x - along Y x.
have cons_in v : span id_ X v -> span id_ (x :: X) v by apply: span_sub => y h; apply: span_mem; right.
case: eqP => [w0|/eqP w0].
  split=> // v; split=> [/S /cons_in //|]; apply: span_sub => y [<-|h]; last by apply/S; apply: span_mem.
  by have -> : x = along Y x by [apply/eqP; rewrite -subr_eq0 -/w w0]; apply: along_span.
set s := Num.sqrt _; set u := emb s^-1 *: w.
have s0 : s != 0 by rewrite lt0r_neq0 // sqrtr_gt0 norm2_gt0.
have uu : cdot u u = 1 by rewrite cdotvv normalize // rmorph1.
have Yu j : (j < size Y)%N -> cdot Y`_j u = 0 by move=> lj; rewrite cdotZ along_ortho // mulr0.
split.
  move=> i j; rewrite size_rcons !ltnS !nth_rcons => li lj.
  case: (ltngtP i (size Y)) li => // hi _; case: (ltngtP j (size Y)) lj => // hj _.
  - exact: O.
  - by rewrite Yu // hj (ltn_eqF hi).
  - by rewrite cdotC Yu // rmorph0 hi (gtn_eqF hj).
  - by rewrite hi hj eqxx.
have in_Y v : span id_ Y v -> span id_ (rcons Y u) v by apply: span_sub => y h; apply: span_mem; apply/In_rcons; left.
have u_in : span id_ (rcons Y u) u by apply: span_mem; apply/In_rcons; right.
move=> v; split; apply: span_sub => y.
  case/In_rcons => [h|->]; first by apply: cons_in; apply/S; apply: span_mem.
  apply: (@spanZ _ _ id_); apply: spanD; first by apply: span_mem; left.
  by apply: spanN; apply: cons_in; apply/S; apply: along_span.
case=> [<-|h]; last by apply: in_Y; apply/S; apply: span_mem.
have -> : x = emb s *: u + along Y x by rewrite /u scalerA -rmorphM mulfV // rmorph1 scale1r subrK.
by apply: spanD; [apply: (@spanZ _ _ id_)|apply: in_Y; apply: along_span].
Qed.
End Columns.

Section Gram.
Variables (F : rcfType) (K : fieldType) (st : star F K).
Hypothesis top : has_top st.
Lemma eigh_gram m n (A : 'M[K]_(m, n)) : exists lam V, is_eigh st (adj st A *m A) lam V.
Proof.
have [u [s [vh [uu uv sz pos E]]]] := svd_exists top A.
apply: (@sorted_eigh _ _ st _ _ (adj st vh) (\row_i s`_i ^+ 2)); first exact: unitary_adj.
have D : adj st (diag_rect st m n s) *m diag_rect st m n s = diag_mx (map_mx (emb st) (\row_i s`_i ^+ 2)).
  apply/matrixP => i j; rewrite !mxE; have [im|im] := ltnP i m.
    rewrite (bigD1 (Ordinal im)) //= big1 ?addr0 => [|k ki].
      rewrite adjE !mxE eqxx cj_emb /= (val_eqE i j : (nat_of_ord i == nat_of_ord j) = _) rmorphX expr2.
      by case: eqVneq => _; rewrite ?mulr1n ?mulr0.
    rewrite adjE !mxE; case: eqP => [e|_]; last by rewrite rmorph0 mul0r.
    by move: ki; rewrite -(inj_eq val_inj) /= e eqxx.
  rewrite big1 => [|k _]; last first.
    by rewrite adjE !mxE (ltn_eqF (leq_trans (ltn_ord k) im)) rmorph0 mul0r.
  by rewrite (nth_default 0) ?sz ?geq_min ?im // expr0n rmorph0 mul0rn.
rewrite E !adjM !mulmxA -(mulmxA _ (adj st u)) (Star.unitaryC uu) mulmx1 -(mulmxA (adj st vh)) D.
by rewrite -mulmxA uv mulmx1.
Qed.
Lemma eigsh_exists m n (A : 'M[K]_(m, n)) : exists eigsh, eigsh_contract st (adj st A *m A) eigsh.
Proof.
have [lam [V h]] := eigh_gram A.
exists (fun k => if k is 0%N then Err ValueError else Ok (take k lam, take k (cols V))).
by split=> // -[|k] // _; exists lam, V.
Qed.
End Gram.

(* ---- the contracts of the other theorems ---- *)
Theorem C26_contracts (F : rcfType) m n :
  (forall A : 'M[F]_(m, n), exists u s vh, is_svd (real_star F) A u s vh) /\
  (forall A : 'M[F[i]]_(m, n), exists u s vh, is_svd (complex_star F) A u s vh).
Proof. by split=> A; apply: svd_exists; [exact: real_top|exact: complex_top]. Qed.

Theorem C28_contracts (F : rcfType) m n :
  ((forall A : 'M[F]_(m, n), exists eigsh, eigsh_contract (real_star F) (adj (real_star F) A *m A) eigsh) /\
   (forall A : 'M[F[i]]_(m, n), exists eigsh, eigsh_contract (complex_star F) (adj (complex_star F) A *m A) eigsh)) /\
  (exists qr, Nullspace.qr_contract (real_star F) (n := n) qr) /\ (exists qr, Nullspace.qr_contract (complex_star F) (n := n) qr).
Proof.
split; first by split=> A; apply: eigsh_exists; [exact: real_top|exact: complex_top].
by split; [exists (@columns_qr _ _ (real_star F) n)|exists (@columns_qr _ _ (complex_star F) n)] => X _; apply: columns_qrP.
Qed.

Theorem C52_contracts (F : rcfType) n : exists qr : 'M[F[i]]_n -> 'M[F[i]]_n * 'M[F[i]]_n, forall h, is_qr h (qr h).
Proof.
have [f P] : exists f : forall k, 'M[F[i]]_k -> 'M[F[i]]_k, forall k (A : 'M[F[i]]_k),
    (f k A *m adj (complex_star F) (f k A) == 1%:M) &&
    [forall i : 'I_k, forall j : 'I_k, (j < i)%N ==> ((adj (complex_star F) (f k A) *m A) i j == 0)].
  apply: (@fun_of (fun k => 'M[F[i]]_k) (fun k => [choiceType of 'M[F[i]]_k]) (fun k A Q => (Q *m adj (complex_star F) Q == 1%:M) &&
    [forall i : 'I_k, forall j : 'I_k, (j < i)%N ==> ((adj (complex_star F) Q *m A) i j == 0)])).
  move=> k A; have [Q uQ T] := qr_exists (complex_star F) A; exists Q; apply/andP; split; first exact/eqP.
  by apply/'forall_forallP => i j; apply/implyP => ji; apply/eqP/T.
exists (fun h => (f n h, PropRmt.adj (f n h) *m h)) => h; have /andP [/eqP u /forallP T] := P n h.
have e : adj (complex_star F) (f n h) = PropRmt.adj (f n h) by apply/matrixP => i j; rewrite !mxE.
split=> /=; first by rewrite -e; exact: mulmx1C.
  by move=> i j ji; have /forallP /(_ j) := T i; rewrite ji e => /eqP.
by rewrite mulmxA -e u mul1mx.
Qed.

Theorem C90_contracts (F : rcfType) N m :
  (exists lsq, @PropLie.lstsq_contract [fieldType of F[i]] N m lsq) /\
  exists svd : 'M[F[i]]_m -> seq F * 'M[F[i]]_m, forall g, exists u, is_svd (complex_star F) g u (svd g).1 (svd g).2.
Proof.
split.
  exists (fun B v => (v^T *m pinvmx B^T)^T) => B v c E; apply: trmx_inj; rewrite trmx_mul trmxK mulmxKpV //.
  by rewrite -E trmx_mul submxMl.
pose good (g : 'M[F[i]]_m) (p : ('M[F[i]]_m * seq F) * 'M[F[i]]_m) : bool := let: (u, s, vh) := p in
    [&& u *m adj (complex_star F) u == 1%:M, vh *m adj (complex_star F) vh == 1%:M, size s == minn m m, all (fun x => 0 <= x) s &
        g == u *m diag_rect (complex_star F) m m s *m vh].
have h g : exists p, good g p.
  have [u [s [vh [h1 h2 h3 h4 h5]]]] := svd_exists (@complex_top F) g.
  by exists (u, s, vh); apply/and5P; split=> //; apply/eqP.
exists (fun g => ((xchoose (h g)).1.2, (xchoose (h g)).2)) => g; exists (xchoose (h g)).1.1.
by move: (xchooseP (h g)); case: (xchoose (h g)) => [[u s] vh] /and5P [/eqP h1 /eqP h2 /eqP h3 h4 /eqP h5].
Qed.

(* np.round: over an archimedean field there is a nearest integer; np.argsort of keys *)
Theorem C57_contracts (F : rcfType) : Num.archimedean_axiom F ->
  (exists rnd : F -> int, forall x, `|x - (rnd x)%:~R| <= 2^-1) /\
  forall T : eqType, exists argsort : (T -> F) -> seq T -> seq T, forall key s,
    perm_eq (argsort key s) s /\ sorted (fun z w => key z <= key w) (argsort key s).
Proof.
move=> arch; split; last first.
  move=> T; exists (fun key s => sort (fun z w => key z <= key w) s) => key s.
  by split; [rewrite perm_sort|apply: sort_sorted => z w; exact: le_total].
have h0 : 0 <= 2^-1 :> F by rewrite invr_ge0 ler0n.
have near (b : nat) (x : F) : `|x| <= b%:R + 2^-1 -> exists z : int, `|x - z%:~R| <= 2^-1.
  elim: b x => [|b IH] x; first by rewrite add0r; exists 0; rewrite subr0.
  have half : 2^-1 + 2^-1 = 1 :> F by rewrite -[2^-1]mul1r -splitr.
  rewrite ler_norml -[b.+1]addn1 natrD addrAC => /andP [lo hi].
  have low : 1 - (b%:R + 2^-1) <= 2^-1 :> F by rewrite ler_subl_addr addrCA half ler_addr ler0n.
  have [x1|x1] := lerP x 2^-1; last first.
    have [|z zP] := IH (x - 1).
      by rewrite ler_norml ler_subr_addr ler_subl_addr hi andbT addrC (le_trans low) // ltW.
    by exists (z + 1); rewrite rmorphD /= opprD addrCA addrC.
  have [x2|x2] := lerP (- 2^-1) x; first by exists 0; rewrite subr0 ler_norml x2.
  have [|z zP] := IH (x + 1).
    rewrite ler_norml -ler_subl_addr -opprD lo /= -ler_subr_addr; apply: (le_trans (ltW x2)).
    by rewrite ler_oppl opprB.
  by exists (z - 1); rewrite rmorphB /= opprB addrA.
have h (x : F) : exists z : int, `|x - z%:~R| <= 2^-1.
  by have [b xb] := arch x; apply: (near b); rewrite (le_trans (ltW xb)) // ler_addl.
by exists (fun x => xchoose (h x)) => x; exact: (xchooseP (h x)).
Qed.
