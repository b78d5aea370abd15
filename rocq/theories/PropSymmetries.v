(* C100: reduction, conserved quantities and the search for unitaries together *)
From mathcomp Require Import all_ssreflect all_fingroup all_algebra zify.
From mathcomp Require Import complex.
From Verif Require Import Prelude PGE PGEProofs LinSpan NullSpec Star Nullspace Tolerance PropTol Linalg MatBasisProofs PropLinalg Lie PropLie SymBlocks PropBlocks SimultDiag PropSimult PropConserved StarAlg Sun PropSun PropReduce PropFind Symmetries.

Set Implicit Arguments.
Unset Strict Implicit.
Unset Printing Implicit Defensive.
Import Order.TTheory GRing.Theory Num.Theory.
Local Open Scope ring_scope.

Arguments groups {F N} S a.
Lemma apart_nth T (R : T -> T -> Prop) (x0 : T) s i j : apart R s -> (i < j)%N -> (j < size s)%N -> R (nth x0 s i) (nth x0 s j).
Proof.
elim: s i j => [|x s IH] [|i] [|j] //= [h a] ij js; last exact: IH.
by apply: h; apply: nth_In.
Qed.

(* ---- the eigenvalue test ---- *)
Section Eigenvalues.
Variable F : rcfType.
Local Notation C := F[i].
Lemma det_perm n (M : 'M[C]_n) : M \in unitmx -> exists s : 'S_n, forall a, M a (s a) != 0.
Proof.
rewrite unitmxE unitfE => d0; case: (pickP (fun s : 'S_n => [forall a, M a (s a) != 0])) => [s /forallP h|no]; first by exists s.
case/eqP: d0; rewrite /determinant big1 // => s _; have /negbT := no s; rewrite negb_forall => /existsP[a]; rewrite negbK => /eqP z.
by rewrite (bigD1 a) //= z mul0r mulr0.
Qed.
Lemma diag_similar n (l l' : seq F) (M : 'M[C]_n) : size l = n -> size l' = n -> M \in unitmx ->
  diag_mx (\row_i (l'`_i)%:C%C) *m M = M *m diag_mx (\row_i (l`_i)%:C%C) -> sorted <=%R l -> sorted <=%R l' -> l' = l.
Proof.
move=> sl sl' uM e so so'; have [s hs] := det_perm uM.
have h (a : 'I_n) : l'`_a = l`_(s a).
  have := congr1 (fun A : 'M[C]_n => A a (s a)) e; rewrite mul_diag_mx mul_mx_diag !mxE [RHS]mulrC => /(mulIf (hs a)) [] //.
apply: (sorted_eq le_trans le_anti) => //.
have nE (t : seq F) : size t = n -> t = [seq t`_(val i) | i <- enum 'I_n].
  by move=> st; rewrite (map_comp (nth 0 t) val) val_enum_ord -st map_nth_iota0 ?take_size.
rewrite (nE l' sl') (nE l sl) (eq_map h) (map_comp (fun i : 'I_n => l`_i) s); apply: perm_map.
apply: uniq_perm; [by rewrite map_inj_uniq ?enum_uniq //; apply: perm_inj|exact: enum_uniq|].
by move=> x; rewrite mem_enum; apply/mapP; exists (s^-1%g x); rewrite ?mem_enum ?permKV.
Qed.
Variables (eigh : forall n, 'M[C]_n -> seq F * 'M[C]_n).
Hypothesis eighP : eigh_contract eigh.
Lemma eigh_similar p q (A : 'M[C]_p) (B : 'M[C]_q) (X : 'M[C]_(q, p)) : p = q -> dag A = A -> dag B = B -> X *m dag X = 1%:M ->
  X *m A = B *m X -> (eigh A).1 = (eigh B).1.
Proof.
move=> pq; subst q => hA hB uX h.
have [uV sV oV eV] := eighP hA; have [uW sW oW eW] := eighP hB.
rewrite /Star.unitary !adj_dag in uV uW; set V := (eigh A).2 in uV eV *; set W := (eigh B).2 in uW eW *.
have wu := mulmx1C uW.
symmetry; apply: (diag_similar (M := dag W *m X *m V)) => //.
  have [v1 _] := mulmx1_unit uV; have [x1 _] := mulmx1_unit uX; have [_ w1] := mulmx1_unit uW.
  by rewrite !unitmx_mul v1 x1 w1.
have eW' : dag W *m B = diag_mx (\row_i ((eigh B).1`_i)%:C%C) *m dag W.
  by rewrite -[LHS]mulmx1 -uW !mulmxA -[_ *m B *m W]mulmxA eW !mulmxA wu mul1mx.
have -> : dag W *m X *m V *m diag_mx (\row_i ((eigh A).1`_i)%:C%C) = dag W *m B *m X *m V.
  by rewrite -mulmxA -[V *m _]eV !mulmxA -[dag W *m X *m A]mulmxA h !mulmxA.
by rewrite eW' !mulmxA.
Qed.
End Eigenvalues.

(* ---- the arrays of a reduced family ---- *)
Section Arrays.
Variables (F : rcfType) (N : nat) (H : seq 'M[F[i]]_N.+1) (Ps : seq (stack F N.+1)).
Local Notation C := F[i].
Hypothesis R : reduced H Ps.
Local Notation P := (@pP F N Ps).
Local Notation d := (@pd F N Ps).
Local Notation k := (size Ps).
Lemma parr_in (i : 'I_k) : List.In (parr i) Ps. Proof. exact: nth_In. Qed.
Lemma pd0 i : (0 < d i)%N. Proof. by have [o _ _ _] := R; have [] := o _ (parr_in i). Qed.
Lemma pw0 (i : 'I_k) : (0 < tag (parr i))%N. Proof. by have [o _ _ _] := R; have [] := o _ (parr_in i). Qed.
(* conform_mx is the identity up to the type *)
Definition conf (S : stack F N.+1) (a : nat) : 'M[C]_(N.+1, ((tag S).-1).+1) := conform_mx 0 (tagged S)`_a.
Lemma confP (S : stack F N.+1) (Q : forall w, (nat -> 'M[C]_(N.+1, w)) -> Prop) : (0 < tag S)%N ->
  Q (tag S) (fun a => (tagged S)`_a) -> (forall w f g, f =1 g -> Q w f -> Q w g) -> Q ((tag S).-1).+1 (conf S).
Proof. by case: S => [[|w] l] //= _ q ext; apply: ext q => a; rewrite /conf /= conform_mx_id. Qed.
Lemma parr_orth (i : 'I_k) (a b : nat) : (a < d i)%N -> (b < d i)%N -> dag (P i a) *m P i b = ((a == b)%:R)%:M.
Proof.
move=> la lb; have [o _ _ _] := R; have [_ w0 oS] := o _ (parr_in i).
apply: (@confP (parr i) (fun w f => dag (f a) *m f b = ((a == b)%:R)%:M)) => // [|w f g e].
  by have := oS (Ordinal la) (Ordinal lb).
by rewrite !e.
Qed.
Lemma parr_orth0 (i j : 'I_k) (a b : nat) : i != j -> (a < d i)%N -> (b < d j)%N -> dag (P i a) *m P j b = 0.
Proof.
have main (i' j' : 'I_k) (a' b' : nat) : (i' < j')%N -> (a' < d i')%N -> (b' < d j')%N -> dag (P i' a') *m P j' b' = 0.
  move: i' j' a' b' => {}i {}j {}a {}b ij la lb; have [_ ap _ _] := R.
  have z : dag (groups (parr i) (Ordinal la)) *m groups (parr j) (Ordinal lb) = 0 by apply: (apart_nth _ ap ij).
  apply: (@confP (parr i) (fun w f => dag (f a) *m P j b = 0)); [exact: pw0| |by move=> w f g e; rewrite e].
  by apply: (@confP (parr j) (fun w f => dag (tagged (parr i))`_a *m f b = 0)); [exact: pw0| |move=> w f g e; rewrite e].
move=> ij la lb; case: (ltngtP i j) => [l|l|e]; [exact: main| |by rewrite (val_inj e) eqxx in ij].
by apply: flip_orth; apply: main.
Qed.
Lemma parr_orthonormal : orthonormal d P.
Proof. by split; [exact: parr_orth|exact: parr_orth0]. Qed.
Lemma parr_complete : complete d P.
Proof.
have [_ _ sm _] := R; rewrite /complete -[RHS]sm (big_nth (mks ([::] : seq 'M[C]_(N.+1, 0)))) big_mkord; apply: eq_bigr => i _.
rewrite big_mkord; apply: eq_bigr => a _.
apply: (@confP (parr i) (fun w f => f a *m dag (f a) = groups (parr i) a *m dag (groups (parr i) a))); [exact: pw0|by []|].
by move=> w f g e; rewrite e.
Qed.
(* every member of the family is block diagonal *)
Definition pblk h (i : 'I_k) : 'M[C]_((pn i).+1) := dag (P i 0%N) *m h *m P i 0%N.
Lemma parr_right h (i : 'I_k) a : List.In h H -> (a < d i)%N -> h *m P i a = P i a *m pblk h i.
Proof.
move=> hin la; apply: (@confP (parr i) (fun w f => h *m f a = f a *m (dag (f 0%N) *m h *m f 0%N))); [exact: pw0| |].
  have := C98_blocks R (parr_in i) hin (Ordinal la); rewrite /blk insubT; first exact: pd0.
  by move=> p.
by move=> w f g e; rewrite !e.
Qed.
Lemma parr_block h : List.In h H -> block_diagonal d P h.
Proof.
move=> hin; exists (pblk h); rewrite -[LHS]mulmx1 -parr_complete mulmx_sumr; apply: eq_bigr => i _.
by rewrite mulmx_sumr; apply: eq_big_nat => a /andP[_ la]; rewrite mulmxA parr_right.
Qed.
Lemma parr_irr i : forall Y, (forall h, List.In h H -> Y *m pblk h i = pblk h i *m Y) -> exists c, Y = c%:M.
Proof.
apply: (@confP (parr i) (fun w f => forall Y, (forall h, List.In h H -> Y *m (dag (f 0%N) *m h *m f 0%N) = dag (f 0%N) *m h *m f 0%N *m Y) -> exists c, Y = c%:M)).
- exact: pw0.
- move=> Y cY; apply: (C98_irreducible R (parr_in i)) => h hin; rewrite /blk insubT; first exact: pd0.
  by move=> p; apply: cY.
by move=> w f g e h Y cY; apply: h => h hin; rewrite e; apply: cY.
Qed.
Lemma parr_unit (i : 'I_k) a b : (a < d i)%N -> (b < d i)%N -> commutes H (P i a *m dag (P i b)).
Proof.
move=> la lb; apply: (@confP (parr i) (fun w f => commutes H (f a *m dag (f b)))); [exact: pw0| |].
  exact: (unit_commutes R (parr_in i) (Ordinal la) (Ordinal lb)).
by move=> w f g e; rewrite !e.
Qed.
Lemma parr_commutant X : commutes H X <-> exists L : forall i, 'M[C]_(d i), X = \sum_i \sum_(a < d i) \sum_(b < d i) L i a b *: (P i a *m dag (P i b)).
Proof.
split=> [|[L ->] h hin]; last first.
  rewrite mulmx_suml mulmx_sumr; apply: eq_bigr => i _; rewrite mulmx_suml mulmx_sumr; apply: eq_bigr => a _.
  rewrite mulmx_suml mulmx_sumr; apply: eq_bigr => b _; by rewrite -scalemxAl -scalemxAr parr_unit.
have [_ _ _ h] := R; move/h => [L ->]; exists (fun i => L (parr i)).
rewrite (big_nth (mks ([::] : seq 'M[C]_(N.+1, 0)))) big_mkord; apply: eq_bigr => i _; rewrite -/(parr i) /tens.
apply: eq_bigr => a _; apply: eq_bigr => b _; congr (_ *: _); symmetry.
apply: (@confP (parr i) (fun w f => f a *m dag (f b) = groups (parr i) a *m dag (groups (parr i) b))); [exact: pw0|by []|].
by move=> w f g e; rewrite !e.
Qed.
Lemma parr_left h (i : 'I_k) a : List.In h H -> (a < d i)%N -> dag (P i a) *m h = pblk h i *m dag (P i a).
Proof.
move=> hin la; apply: (@confP (parr i) (fun w f => dag (f a) *m h = (dag (f 0%N) *m h *m f 0%N) *m dag (f a))); [exact: pw0| |].
  have := blk_left R (parr_in i) hin (Ordinal la); rewrite /blk insubT; first exact: pd0.
  by move=> p.
by move=> w f g e; rewrite !e.
Qed.
Lemma parr_ineq i j : i != j -> forall Y : 'M[C]_((pn i).+1, (pn j).+1), (forall h, List.In h H -> Y *m pblk h j = pblk h i *m Y) -> Y = 0.
Proof.
move=> ij Y cY; have /parr_commutant[L e] : commutes H (P i 0%N *m Y *m dag (P j 0%N)).
  move=> h hin; have -> : P i 0%N *m Y *m dag (P j 0%N) *m h = P i 0%N *m (Y *m pblk h j) *m dag (P j 0%N).
    by rewrite -mulmxA parr_left ?pd0 // mulmxA -[P i _ *m Y *m _]mulmxA.
  have -> : h *m (P i 0%N *m Y *m dag (P j 0%N)) = P i 0%N *m (pblk h i *m Y) *m dag (P j 0%N).
    by rewrite mulmxA mulmxA parr_right ?pd0 // -[P i _ *m pblk _ _ *m _]mulmxA.
  by rewrite cY.
have <- : dag (P i 0%N) *m (P i 0%N *m Y *m dag (P j 0%N)) *m P j 0%N = Y.
  by rewrite !mulmxA parr_orth ?pd0 // mul1mx -mulmxA parr_orth ?pd0 // mulmx1.
rewrite e mulmx_sumr mulmx_suml big1 // => l _; rewrite mulmx_sumr mulmx_suml big1 // => a _; rewrite mulmx_sumr mulmx_suml big1 // => b _.
rewrite -scalemxAr -scalemxAl mulmxA; have [il|il] := eqVneq l j; last first.
  have z : dag (P l b) *m P j 0%N = 0 by apply: parr_orth0 => //; apply: pd0.
  by rewrite -[_ *m dag (P l b) *m _]mulmxA z mulmx0 scaler0.
have z : dag (P i 0%N) *m P l a = 0 by apply: parr_orth0 => //; [rewrite il|apply: pd0].
by rewrite z !mul0mx scaler0.
Qed.
(* what commutes with the family commutes with everything of its block structure *)
Lemma parr_conserved X : conserved d P X <-> commutes H X.
Proof.
split=> [cX h hin|/parr_commutant[L ->] h [b eh]]; first by apply: cX; apply: parr_block.
have rt i a : (a < d i)%N -> h *m P i a = P i a *m (dag (P i 0%N) *m h *m P i 0%N) by move=> la; have [] := block_R parr_orthonormal pd0 (ex_intro _ b eh) la.
have lf i a : (a < d i)%N -> dag (P i a) *m h = (dag (P i 0%N) *m h *m P i 0%N) *m dag (P i a) by move=> la; have [] := block_R parr_orthonormal pd0 (ex_intro _ b eh) la.
rewrite mulmx_suml mulmx_sumr; apply: eq_bigr => i _; rewrite mulmx_suml mulmx_sumr; apply: eq_bigr => x _.
rewrite mulmx_suml mulmx_sumr; apply: eq_bigr => y _; rewrite -scalemxAl -scalemxAr; congr (_ *: _).
by rewrite -mulmxA lf // mulmxA -rt // mulmxA.
Qed.
Theorem onsiteP : is_basis [rmorphism of real_complex F] (onsite_symmetries Ps) (fun X => [/\ dag X = X, \tr X = 0 & commutes H X]).
Proof.
apply: eq_basis (C60_basis parr_orthonormal parr_complete pd0) => X; split=> -[h1 h2 h3]; split=> //; exact/parr_conserved.
Qed.
Theorem onsite_size : size (onsite_symmetries Ps) = ((\sum_(S <- Ps) size (tagged S) ^ 2) - 1)%N.
Proof.
rewrite /onsite_symmetries (C60_count parr_orthonormal parr_complete pd0) (big_nth (mks ([::] : seq 'M[C]_(N.+1, 0)))) big_mkord //.
Qed.
End Arrays.

Section Search.
Variables (F : rcfType) (tol atol ntol dtol : F).
Local Notation C := F[i].
Local Notation rc := [rmorphism of real_complex F].
Local Notation idf := [rmorphism of idfun].
Variables (eigh : forall n, 'M[C]_n -> seq F * 'M[C]_n) (svd : forall n, 'M[C]_n -> 'M[C]_n * 'M[C]_n).
Variables (nsR : forall N, seq 'rV[F]_N -> seq 'rV[F]_N) (nsC : forall N, seq 'rV[C]_N -> seq 'rV[C]_N).
Variables (lsq : forall m N, 'M[C]_(N * N, m) -> 'cV[C]_(N * N) -> 'cV[C]_m) (nsvd : forall m, 'M[C]_m -> seq F * 'M[C]_m).
Variables (eig : forall n, 'M[C]_n -> seq C * 'M[C]_n) (qr : forall n, 'M[C]_n -> 'M[C]_n).
Variables (components : forall n, rel 'I_n -> seq nat) (argsort : seq nat -> seq nat).
Hypotheses (t0 : 0 <= tol) (a0 : 0 <= atol) (n0 : 0 <= ntol) (d0 : 0 < dtol).
Hypotheses (eighP : eigh_contract eigh) (svdP : svd_contract svd) (nsP : exact_nullspace nsR) (nsCP : exact_nullspace nsC).
Hypotheses (lsqP : forall m N, lstsq_contract (@lsq m N)).
Hypotheses (nsvdP : forall m (g : 'M[C]_m), exists u, is_svd (complex_star F) g u (nsvd g).1 (nsvd g).2).
Hypotheses (eigP : eig_contract eig) (qrP : qr_contract qr) (compP : components_contract components) (argP : argsort_contract argsort).
Local Notation reduce := (reduce_hamiltonian tol atol eigh svd nsR nsC lsq nsvd ntol dtol eig qr components argsort).
Local Notation hyp := (hyp ntol dtol nsR nsC lsq nsvd).

Lemma solve_sizes m p q (A : 'I_m -> 'M[C]_p.+1) (B : 'I_m -> 'M[C]_q.+1) : (0 < m)%N -> q = p ->
  is_basis idf (match solve_mat_eqn nsR nsC [seq conform_mx (0 : 'M[C]_q.+1) (A t) | t <- enum 'I_m] [seq B t | t <- enum 'I_m] false false (nseq m false) with
    | Ok Xs => [seq conform_mx (0 : 'M[C]_(q.+1, p.+1)) X | X <- Xs] | Err _ => [::] end) (inter A B).
Proof.
move=> m0 qp; subst q; set HL := [seq _ | t <- _]; set HR := [seq _ | t <- _].
have sL : size HL = m by rewrite size_map size_enum_ord.
have sR : size HR = m by rewrite size_map size_enum_ord.
have [|||Xs e b] := @C24_solve_general _ nsR nsC nsCP p.+1 HL HR false; rewrite ?sL ?sR //.
rewrite sL in e; rewrite e (_ : [seq conform_mx 0 X | X <- Xs] = Xs); last by rewrite -[RHS]map_id; apply: eq_map => X; rewrite conform_mx_id.
apply: eq_basis b => X; have nL (t : 'I_m) : HL`_t = A t.
  by rewrite (nth_map t) ?size_enum_ord // conform_mx_id nth_ord_enum.
have nR (t : 'I_m) : HR`_t = B t by rewrite (nth_map t) ?size_enum_ord // nth_ord_enum.
rewrite sL; split=> [[_ h] t|h]; first by have := h t (ltn_ord t); rewrite nL nR.
by split=> // i li; have := h (Ordinal li); rewrite -nL -nR.
Qed.

(* the conserved quantities found for a Hamiltonian are a basis of all the traceless Hermitian matrices that commute with it *)
Theorem C100_conserved N (H : seq 'M[C]_N.+1) Ps : H <> [::] -> hyp H -> reduce H = Ok Ps ->
  is_basis rc (onsite_symmetries Ps) (fun X => [/\ dag X = X, \tr X = 0 & commutes H X]).
Proof.
move=> ne hy e; have := reduceP t0 a0 n0 d0 eighP svdP nsP lsqP nsvdP eigP qrP compP argP (ltn0Sn N) ne hy; rewrite e => R.
apply: eq_basis (onsiteP R) => X; split=> -[h1 h2 h3]; split=> // h hin; first by apply: h3; apply/In_cat; left.
case/In_cat: hin => [/h3 //|/In_map_iff[g /h3 gin ->]].
by rewrite -[in LHS]h1 -[in RHS]h1 -!dag_mul gin.
Qed.
Theorem C100_count N (H : seq 'M[C]_N.+1) Ps : H <> [::] -> hyp H -> reduce H = Ok Ps ->
  size (onsite_symmetries Ps) = ((\sum_(S <- Ps) size (tagged S) ^ 2) - 1)%N.
Proof.
move=> ne hy e; have := reduceP t0 a0 n0 d0 eighP svdP nsP lsqP nsvdP eigP qrP compP argP (ltn0Sn N) ne hy; rewrite e => R.
exact: onsite_size R.
Qed.

(* _find_unitary with the projectors of _reduce_hamiltonian decides whether there is a unitary *)
Section Unitary.
Variables (N m : nat) (HL HR : 'I_m -> 'M[C]_N.+1) (cg sq : bool) (Ps : seq (stack F N.+1)).
Hypothesis m0 : (0 < m)%N.
Local Notation H := [seq HR t | t <- enum 'I_m].
Variables (rho : 'M[C]_m) (ad : 'I_m -> 'I_m).
Hypotheses (HLE : forall t, HL t = \sum_u rho t u *: cjM cg (HR u))
  (HRE : forall t, exists f : 'I_m -> C, cjM cg (HR t) = \sum_u f u *: HL u)
  (back : sq -> forall t, HR t = \sum_u rho t u *: cjM cg (HL u)).
Hypotheses (adR : forall t, HR (ad t) = dag (HR t)) (adL : forall t, HL (ad t) = dag (HL t)).
Lemma in_H t : List.In (HR t) H. Proof. by apply/In_map_iff; exists t => //; apply/In_mem; rewrite mem_enum. Qed.
Lemma find_reduced : reduced H Ps -> exists2 r, find_unitary_in eigh nsR nsC Ps HL HR cg sq = Ok r &
  if r is Some S' then unitary S' /\ (forall t, S' *m HL t = HR t *m S')
  else forall U : 'M[C]_N.+1, U \in unitmx -> ~ (forall t, U *m HL t = HR t *m U).
Proof.
move=> R; have inH h : List.In h H -> exists t, h = HR t by case/In_map_iff=> t _ ->; exists t.
apply: (C99_decides (parr_orthonormal R) (parr_complete R) (pd0 R) HLE HRE back adR adL).
- by move=> t; apply: (parr_block R); apply: in_H.
- by move=> i Y cY; apply: (parr_irr R (i := i)) => h /inH[t ->]; apply: cY.
- by move=> i j X ij cX; apply: (parr_ineq R ij) => h /inH[t ->]; apply: cX.
- by move=> i j nij; apply: solve_sizes.
move=> i j B nij /forallP hm u1 u2 hB; apply/forallP => t; have /andP[/eqP hR /eqP hL] := hm t; apply/eqP.
apply: (eigh_similar eighP (X := B)); rewrite ?nij //.
- by rewrite /red_L !dag_mul dagK -hL mulmxA.
- by rewrite /red_R !dag_mul dagK -hR mulmxA.
Qed.
Theorem C100_find : hyp H -> reduce H = Ok Ps -> exists2 r, find_unitary_in eigh nsR nsC Ps HL HR cg sq = Ok r &
  if r is Some S' then unitary S' /\ (forall t, S' *m HL t = HR t *m S')
  else forall U : 'M[C]_N.+1, U \in unitmx -> ~ (forall t, U *m HL t = HR t *m U).
Proof.
move=> hy red; have ne : H <> [::] by move/(congr1 size); rewrite size_map size_enum_ord /= => e; move: m0; rewrite [X in (_ < X)%N]e.
apply: find_reduced; apply: (C98_sound t0 a0 n0 d0 eighP svdP nsP lsqP nsvdP eigP qrP compP argP (ltn0Sn N) ne _ hy red) => h /In_map_iff[t _ ->].
by rewrite -adR; apply: span_mem; apply: in_H.
Qed.
End Unitary.

(* the identity: all traceless Hermitian matrices are conserved; it is invariant and not antisymmetric *)
Example C100_example N cg (s : bool) : tol = 0 -> atol = 0 -> ntol = 0 ->
  exists Ps, [/\ reduce [:: 1%:M : 'M[C]_N.+1] = Ok Ps, size (onsite_symmetries Ps) = (N.+1 ^ 2 - 1)%N &
    exists2 r, find_unitary_in eigh nsR nsC Ps (fun _ : 'I_1 => (-1) ^+ s *: 1%:M) (fun=> 1%:M) cg true = Ok r & if r is Some S' then unitary S' /\ ~~ s else s].
Proof.
move=> tz az nz; have hy : hyp [:: 1%:M : 'M[C]_N.+1] by apply: (hyp_one dtol n0 nsP lsqP nsvdP (ltn0Sn N) nz).
have [S [e sz w]] := C98_example nsC t0 a0 n0 d0 eighP svdP nsP lsqP nsvdP eigP qrP compP argP (ltn0Sn N) tz az nz.
exists [:: S]; split=> //; first by rewrite (C100_count _ hy e) // big_seq1 sz.
have e1 : enum 'I_1 = [:: 0] by apply: (inj_map val_inj); rewrite val_enum_ord.
have sg2 : (-1) ^+ s * (-1) ^+ s = 1 :> C by rewrite -signr_addb addbb.
have csg b : cj b ((-1) ^+ s : C) = (-1) ^+ s by case: b => //; apply: (rmorph_sign (conjc_rmorphism F)).
have [|t|t|_ t|t|t|||r er h] := @C100_find N 1 (fun=> (-1) ^+ s *: 1%:M) (fun=> 1%:M) cg true [:: S] _ (((-1) ^+ s)%:M) id.
- by [].
- by rewrite big_ord1 !ord1 mxE eqxx mulr1n cjM1.
- by exists (fun=> (-1) ^+ s); rewrite big_ord1 scalerA sg2 scale1r cjM1.
- by rewrite big_ord1 !ord1 mxE eqxx mulr1n cjMZ csg cjM1 scalerA sg2 scale1r.
- by rewrite dag1.
- by rewrite dagZ dag1 -[conjc _]/(cj true _) csg.
- by rewrite e1.
- by rewrite e1.
exists r => //; case: r er h => [U|] er h.
  case: h => u hU; split=> //; apply/negP => s0; have := hU 0; rewrite s0 expr1 scaleN1r mulmxN mulmx1 mul1mx => /eqP.
  rewrite eq_sym -subr_eq0 opprK -mulr2n -scaler_nat scaler_eq0 pnatr_eq0 /= => /eqP U0.
  by move: u; rewrite /unitary U0 mul0mx => /matrixP/(_ 0 0)/eqP; rewrite !mxE eq_sym oner_eq0.
apply: contraT => /negPf s0; case: (h 1%:M (unitmx1 _ _)) => t.
by rewrite mul1mx mulmx1 s0 expr0 scale1r.
Qed.
End Search.
Print Assumptions C100_conserved.
Print Assumptions C100_find.
