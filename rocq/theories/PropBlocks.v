(* C61, C62: the unitary assembled from blocks *)
From mathcomp Require Import all_ssreflect all_algebra zify.
From mathcomp Require Import complex.
From Verif Require Import Prelude Tolerance PropTol Linalg SymBlocks.

Set Implicit Arguments.
Unset Strict Implicit.
Unset Printing Implicit Defensive.
Import Order.TTheory GRing.Theory Num.Theory.
Local Open Scope ring_scope.

Lemma combinationsP (T : eqType) (s : seq T) n c : c \in combinations s n -> subseq c s /\ size c = n.
Proof.
elim: s n c => [|x s IH] [|n] c; rewrite ?in_nil //; try by rewrite inE => /eqP ->; rewrite sub0seq.
rewrite /= mem_cat => /orP[/mapP[c' /IH[sc <-] ->]|/IH[sc <-]]; first by rewrite /= eqxx.
split=> //; exact: subseq_trans sc (subseq_cons s x).
Qed.

Lemma uniq_map_inj (T U : eqType) (f : T -> U) s x y : uniq (map f s) -> x \in s -> y \in s -> f x = f y -> x = y.
Proof.
elim: s => //= z s IH /andP[nz us]; rewrite !inE => /orP[/eqP ->|xs] /orP[/eqP ->|ys] // E; last exact: IH.
- by move: nz; rewrite E map_f.
- by move: nz; rewrite -E map_f.
Qed.

Section Cj.
Variable F : rcfType.
Local Notation C := F[i].
Lemma conjM_mul m n p (A : 'M[C]_(m, n)) (B : 'M[C]_(n, p)) : conjM (A *m B) = conjM A *m conjM B.
Proof. exact: (map_mxM (conjc_rmorphism F)). Qed.
Lemma conjMK m n (A : 'M[C]_(m, n)) : conjM (conjM A) = A.
Proof. by apply/matrixP => i j; rewrite !mxE conjcK. Qed.
Lemma conjM_tr m n (A : 'M[C]_(m, n)) : conjM A^T = (conjM A)^T.
Proof. by apply/matrixP => i j; rewrite !mxE. Qed.
Lemma conjMZ m n c (A : 'M[C]_(m, n)) : conjM (c *: A) = conjc c *: conjM A.
Proof. exact: (map_mxZ (conjc_rmorphism F)). Qed.
Lemma conjM1 m : conjM (1%:M : 'M[C]_m) = 1%:M.
Proof. exact: (map_mx1 (conjc_rmorphism F)). Qed.
Lemma dag_mul m n p (A : 'M[C]_(m, n)) (B : 'M[C]_(n, p)) : dag (A *m B) = dag B *m dag A.
Proof. by rewrite /dag trmx_mul conjM_mul. Qed.
Lemma dagK m n (A : 'M[C]_(m, n)) : dag (dag A) = A.
Proof. by apply/matrixP => i j; rewrite !mxE conjcK. Qed.
Lemma dag1 m : dag (1%:M : 'M[C]_m) = 1%:M. Proof. by rewrite /dag trmx1 conjM1. Qed.
Lemma dagZ m n c (A : 'M[C]_(m, n)) : dag (c *: A) = conjc c *: dag A.
Proof. by apply/matrixP => i j; rewrite !mxE (rmorphM (conjc_rmorphism F)). Qed.
Lemma dagB m n (A B : 'M[C]_(m, n)) : dag (A - B) = dag A - dag B.
Proof. by apply/matrixP => i j; rewrite !mxE (rmorphB (conjc_rmorphism F)). Qed.
Lemma dag_sum m n (I : Type) (r : seq I) (Q : pred I) (A : I -> 'M[C]_(m, n)) : dag (\sum_(i <- r | Q i) A i) = \sum_(i <- r | Q i) dag (A i).
Proof.
by apply: (big_morph (@dag F m n)) => [x y|]; apply/matrixP => i j; rewrite !mxE ?conjc0 // (rmorphD (conjc_rmorphism F)).
Qed.
(* conjugation that is only done for antiunitary elements *)
Definition cj (b : bool) (x : C) := if b then conjc x else x.
Definition cjM (b : bool) m n (A : 'M[C]_(m, n)) := if b then conjM A else A.
Lemma cjM_mul b m n p (A : 'M[C]_(m, n)) (B : 'M[C]_(n, p)) : cjM b (A *m B) = cjM b A *m cjM b B.
Proof. by case: b => //=; rewrite conjM_mul. Qed.
Lemma cjMK b m n (A : 'M[C]_(m, n)) : cjM b (cjM b A) = A. Proof. by case: b => //=; rewrite conjMK. Qed.
Lemma cjM1 b m : cjM b (1%:M : 'M[C]_m) = 1%:M. Proof. by case: b => //=; rewrite conjM1. Qed.
Lemma cjMZ b m n c (A : 'M[C]_(m, n)) : cjM b (c *: A) = cj b c *: cjM b A. Proof. by case: b => //=; rewrite conjMZ. Qed.
Lemma dag_cjM b m n (A : 'M[C]_(m, n)) : dag (cjM b A) = cjM b (dag A).
Proof. by case: b => //=; rewrite /dag -conjM_tr. Qed.
Lemma cjM_sum b m n (I : Type) (r : seq I) (Q : pred I) (A : I -> 'M[C]_(m, n)) :
  cjM b (\sum_(i <- r | Q i) A i) = \sum_(i <- r | Q i) cjM b (A i).
Proof.
by case: b => //=; apply: (big_morph (@conjM F m n)) => [x y|]; apply/matrixP => i j; rewrite !mxE ?conjc0 // (rmorphD (conjc_rmorphism F)).
Qed.
Lemma square_inv m n (A : 'M[C]_(m, n)) (B : 'M[C]_(n, m)) : m = n -> A *m B = 1%:M -> B *m A = 1%:M.
Proof. by move=> e; move: A B; rewrite e => A B; apply: mulmx1C. Qed.
Lemma ptiP m (A : 'M[C]_m.+1) c : pti A = (true, c) <-> A = c%:M.
Proof. exact: (C55_prop_to_id (is_norm_complex F)). Qed.
Lemma sqrtc_norm (c : C) : (sqrtc c)^-1 * conjc ((sqrtc c)^-1) = `|c|^-1.
Proof. by rewrite -sqr_normc normfV exprVn -normrX sqr_sqrtc. Qed.
Lemma pos_norm (c : C) : complex.Im c = 0 -> 0 < complex.Re c -> `|c| = c /\ c != 0.
Proof.
case: c => a b /= -> pa; have p : 0 < (a +i* 0)%C by rewrite ltcE /= eqxx.
by rewrite gtr0_norm // gt_eqF.
Qed.
End Cj.

Section Blocks.
Variable F : rcfType.
Local Notation C := F[i].
Variables (N k : nat) (n d : 'I_k -> nat) (P : forall i : 'I_k, nat -> 'M[C]_(N.+1, (n i).+1)).

(* ---- specification ---- *)
(* the columns of all the projectors form an orthonormal basis *)
Definition orthonormal :=
  (forall i a b, (a < d i)%N -> (b < d i)%N -> dag (P i a) *m P i b = ((a == b)%:R)%:M)
  /\ (forall i j a b, i != j -> (a < d i)%N -> (b < d j)%N -> dag (P i a) *m P j b = 0).
Definition complete := \sum_i \sum_(0 <= a < d i) P i a *m dag (P i a) = 1%:M.
(* in this basis H is block diagonal, with d i identical blocks of size n i *)
Definition block_diagonal (H : 'M[C]_N.+1) :=
  exists h : forall i, 'M[C]_((n i).+1), H = \sum_i \sum_(0 <= a < d i) P i a *m h i *m dag (P i a).
Definition unitary m (S : 'M[C]_m) := S *m dag S = 1%:M.

Hypotheses (orth : orthonormal) (compl : complete) (dpos : forall i, (0 < d i)%N).
Local Notation entry := (@entry F k n).
Local Notation embed := (@embed F N k n d P).

(* ---- dictionaries ---- *)
Lemma dset_tag (l : seq entry) e : uniq [seq tag x | x <- l] -> uniq [seq tag x | x <- dset l e].
Proof.
rewrite /dset; case: ifP => [_|ne].
  have -> // : [seq tag x | x <- [seq (if tag x == tag e then e else x) | x <- l]] = [seq tag x | x <- l].
  by rewrite -map_comp; apply: eq_map => x /=; case: eqP => // ->.
by rewrite map_rcons rcons_uniq ne.
Qed.
Lemma dset_in (l : seq entry) e x : x \in dset l e -> x = e \/ (x \in l /\ tag x != tag e).
Proof.
rewrite /dset; case: ifP => [_|ne].
  by move=> /mapP[y yl ->]; case: ifP => [_|/negbT ny]; [left|right].
rewrite mem_rcons inE => /orP[/eqP ->|xl]; [by left|right; split=> //].
by apply/eqP => E; move: ne; rewrite -E map_f.
Qed.

Section Find.
Variables (m : nat) (HLs HRs : forall i : 'I_k, 'I_m -> 'M[C]_((n i).+1)).
Variables (solve : forall i j : 'I_k, seq 'M[C]_((n i).+1, (n j).+1)) (evs : 'I_k -> 'I_k -> bool).
Variables (sq cg ev_test : bool).
Definition good (e : entry) : Prop :=
  let: existT (i, j) B := e in
  [/\ d i = d j, B *m dag B = 1%:M, dag B *m B = 1%:M & forall t, B *m HLs j t = HRs i t *m B].

Lemma find_blockP i j B : n i = n j -> d i = d j -> find_block HLs HRs solve i j = Ok (Some B) -> good (mk B).
Proof.
move=> nij dij; rewrite /find_block; case: (solve i j) => // B0 rest; set B1 := _ *: B0.
case: ifP => // _; case: ifP => // /negbFE /forallP inter.
case E : (pti _) => [b c]; case: ifP => // /andP[/andP[eb /eqP i0] r0] [<-] /=.
rewrite eb in E; move/ptiP: E => E; have [nc cz] := pos_norm i0 r0.
have u : ((sqrtc c)^-1 *: B1) *m dag ((sqrtc c)^-1 *: B1) = 1%:M.
  by rewrite dagZ -scalemxAl -scalemxAr scalerA sqrtc_norm E nc scale_scalar_mx mulVf.
split=> //; first by apply: square_inv u; rewrite nij.
by move=> t; rewrite -scalemxAl (eqP (inter t)) scalemxAr.
Qed.

(* the transformed family in terms of the original one *)
Variable rho : 'M[C]_m.
Hypothesis HLE : forall i t, HLs i t = \sum_u rho t u *: cjM cg (HRs i u).
(* an element whose square is the identity takes the transformed family back *)
Hypothesis back : sq -> forall i t, HRs i t = \sum_u rho t u *: cjM cg (HLs i u).

Lemma nice_offP i j (B : 'M[C]_((n i).+1, (n j).+1)) : sq -> good (mk B) -> good (mk (nice_off cg B)).
Proof.
move=> s [dij u1 u2 inter]; have -> : nice_off cg B = dag (cjM cg B).
  by rewrite /nice_off /cjM; case: (cg); rewrite // /dag conjM_tr conjMK.
have v1 : cjM cg B *m dag (cjM cg B) = 1%:M by rewrite dag_cjM -cjM_mul u1 cjM1.
have v2 : dag (cjM cg B) *m cjM cg B = 1%:M by rewrite dag_cjM -cjM_mul u2 cjM1.
split; rewrite ?dagK //= => t.
suff E : HLs i t *m cjM cg B = cjM cg B *m HRs j t.
  by rewrite -[LHS]mulmx1 -v1 !mulmxA -[_ *m HLs i t *m _]mulmxA E !mulmxA v2 mul1mx.
rewrite HLE (back s) mulmx_suml mulmx_sumr; apply: eq_bigr => u _.
by rewrite -scalemxAl -scalemxAr -!cjM_mul inter.
Qed.
Lemma nice_diagP i (B B' : 'M[C]_((n i).+1)) : good (mk B) -> nice_diag cg B = Ok B' -> good (mk B').
Proof.
case=> _ u1 u2 inter; rewrite /nice_diag; case: (cg); case E : (pti _) => [b c]; case: ifP => //.
  by move=> _ [<-].
move=> /andP[eb /eqP nc] [<-].
have u : ((sqrtc c)^-1 *: B) *m dag ((sqrtc c)^-1 *: B) = 1%:M.
  by rewrite dagZ -scalemxAl -scalemxAr scalerA sqrtc_norm nc invr1 u1 scale1r.
split=> //; first exact: mulmx1C.
by move=> t; rewrite -scalemxAl inter scalemxAr.
Qed.

Definition good_dict (bd : seq entry) := uniq [seq tag x | x <- bd] /\ forall e, e \in bd -> good e.
Lemma dset_good bd e : good_dict bd -> good e -> good_dict (dset bd e).
Proof.
move=> [u g] ge; split; first exact: dset_tag.
by move=> x /dset_in[->|[/g]].
Qed.
Lemma block_stepP bd ij bd' : good_dict bd -> block_step d HLs HRs solve evs sq cg ev_test bd ij = Ok bd' -> good_dict bd'.
Proof.
move=> g; rewrite /block_step; case: ij => i j.
case: ifP => [_ [<-] //|_]; case: ifP => [_ [<-] //|/negbT]; rewrite negb_or !negbK => /andP[/eqP dij /eqP nij].
case: ifP => [_ [<-] //|_]; case: ifP => _.
  case E : (find_block _ _ _ i i) => [[B|]|] //=; last by case=> <-.
  have gB := find_blockP erefl erefl E.
  case: ifP => s; last by case=> <-; apply: dset_good.
  case E' : (nice_diag cg B) => [B'|] //= [<-]; have gB' := nice_diagP gB E'.
  by apply: dset_good => //; apply: dset_good.
case E : (find_block _ _ _ i j) => [[B|]|] //=; last by case=> <-.
have gB := find_blockP nij dij E.
case: ifP => s; last by case=> <-; apply: dset_good.
by case=> <-; apply: dset_good; [apply: dset_good|apply: nice_offP].
Qed.
Lemma find_blocksP bd : find_unitary_blocks d HLs HRs solve evs sq cg ev_test = Ok bd -> good_dict bd.
Proof.
have : good_dict [::] by split.
rewrite /find_unitary_blocks; elim: (pairs k) [::] => [|ij ijs IH] bd0 g0 /=; first by case=> <-.
by case E : (block_step _ _ _ _ _ _ _ _ _ _) => [bd1|] //=; apply: IH; apply: block_stepP E.
Qed.
End Find.

(* ---- the assembled matrix ---- *)
Definition proj i : 'M[C]_N.+1 := \sum_(0 <= a < d i) P i a *m dag (P i a).
Lemma orth_cj cg i a b : (a < d i)%N -> (b < d i)%N -> dag (cjM cg (P i a)) *m cjM cg (P i b) = ((a == b)%:R)%:M.
Proof.
move=> ha hb; rewrite dag_cjM -cjM_mul orth.1 //; case: (a == b); first exact: cjM1.
by rewrite -[0%:R]/(0 : C) raddf0; case: cg => //=; apply/matrixP => x y; rewrite !mxE conjc0.
Qed.
Lemma orth_cj0 cg i j a b : i != j -> (a < d i)%N -> (b < d j)%N -> dag (cjM cg (P i a)) *m cjM cg (P j b) = 0.
Proof.
move=> ij ha hb; rewrite dag_cjM -cjM_mul orth.2 //.
by case: cg => //=; apply/matrixP => x y; rewrite !mxE conjc0.
Qed.
Lemma embedE cg i j (B : 'M[C]_((n i).+1, (n j).+1)) :
  embed cg (mk B) = \sum_(0 <= a < d i) P i a *m B *m dag (cjM cg (P j a)).
Proof. by apply: eq_bigr => a _; case: cg => //=; rewrite /dag -conjM_tr conjMK. Qed.
(* sum over a and b of products of projectors *)
Lemma glue cg i j l (A : nat -> 'M[C]_(N.+1, (n j).+1)) (B : nat -> 'M[C]_((n l).+1, N.+1)) : d i = d j ->
  (\sum_(0 <= a < d i) A a *m dag (cjM cg (P j a))) *m (\sum_(0 <= b < d l) cjM cg (P l b) *m B b)
  = \sum_(0 <= a < d i) \sum_(0 <= b < d l) A a *m (dag (cjM cg (P j a)) *m cjM cg (P l b)) *m B b.
Proof.
move=> dij; rewrite mulmx_suml; apply: eq_bigr => a _; rewrite mulmx_sumr; apply: eq_bigr => b _.
by rewrite !mulmxA.
Qed.
Lemma glue_ne cg i j l (A : nat -> 'M[C]_(N.+1, (n j).+1)) (B : nat -> 'M[C]_((n l).+1, N.+1)) : d i = d j -> j != l ->
  (\sum_(0 <= a < d i) A a *m dag (cjM cg (P j a))) *m (\sum_(0 <= b < d l) cjM cg (P l b) *m B b) = 0.
Proof.
move=> dij jl; rewrite glue // big_nat_cond big1 // => a /andP[/andP[_ ha] _]; rewrite big_nat_cond big1 // => b /andP[/andP[_ hb] _].
by rewrite orth_cj0 -?dij // mulmx0 mul0mx.
Qed.
Lemma glue_eq cg i j (A : nat -> 'M[C]_(N.+1, (n j).+1)) (B : nat -> 'M[C]_((n j).+1, N.+1)) : d i = d j ->
  (\sum_(0 <= a < d i) A a *m dag (cjM cg (P j a))) *m (\sum_(0 <= b < d j) cjM cg (P j b) *m B b) = \sum_(0 <= a < d i) A a *m B a.
Proof.
move=> dij; rewrite glue //; apply: eq_big_nat => a /andP[_ ha].
have ha' : (a < d j)%N by rewrite -dij.
rewrite (eq_big_nat _ _ (F2 := fun b => if b == a then A a *m B a else 0)); last first.
  move=> b /andP[_ hb]; rewrite orth_cj // eq_sym; case: eqP => [->|_]; first by rewrite mulmx1.
  by rewrite -[0%:R]/(0 : C) raddf0 mulmx0 mul0mx.
by rewrite -dij big_mkord -big_mkcond /= (big_pred1 (Ordinal ha)).
Qed.

Section Assemble.
Variables (cg : bool) (perm : seq entry).
Hypotheses (gp : forall e, e \in perm -> let: existT (i, j) B := e in d i = d j /\ B *m dag B = 1%:M)
  (up : uniq [seq tag e | e <- perm]) (sp : size perm = k)
  (pm : key_matrix perm *m (key_matrix perm)^T = 1%:M).
Let S := \sum_(e <- perm) embed cg e.
Lemma ortho_rows (M : 'M[int]_k) i i' j : (forall x y, 0 <= M x y) -> M *m M^T = 1%:M -> M i j = 1 -> M i' j = 1 -> i = i'.
Proof.
move=> M0 MM h h'; apply/eqP; apply/negPn/negP => ne.
have := congr1 (fun A : 'M_k => A i i') MM; rewrite !mxE (negPf ne) => /eqP; rewrite psumr_eq0 => [/allP H|l _]; last by rewrite mxE mulr_ge0.
by have := H j (mem_index_enum j); rewrite mxE h h'.
Qed.
Lemma keyE i j : ((i, j) \in [seq tag e | e <- perm]) = (key_matrix perm i j == 1).
Proof. by rewrite mxE; case: (_ \in _). Qed.
Lemma key_ge0 x y : 0 <= key_matrix perm x y. Proof. by rewrite mxE ler0n. Qed.
Lemma key_col (i i' j : 'I_k) : (i, j) \in [seq tag e | e <- perm] -> (i', j) \in [seq tag e | e <- perm] -> i = i'.
Proof. by rewrite !keyE => /eqP h /eqP h'; apply: (ortho_rows key_ge0 pm h h'). Qed.
Lemma key_row (i j j' : 'I_k) : (i, j) \in [seq tag e | e <- perm] -> (i, j') \in [seq tag e | e <- perm] -> j = j'.
Proof.
rewrite !keyE => /eqP h /eqP h'; apply: (@ortho_rows (key_matrix perm)^T _ _ i); rewrite ?trmxK; try by rewrite mxE.
  by move=> x y; rewrite mxE key_ge0.
exact: mulmx1C.
Qed.
Lemma same_tag e e' : e \in perm -> e' \in perm -> tag e = tag e' -> e = e'.
Proof. exact: uniq_map_inj. Qed.
Lemma sum_rows (f : 'I_k -> 'M[C]_N.+1) : \sum_(e <- perm) f (tag e).1 = \sum_i f i.
Proof.
have u1 : uniq [seq x.1 | x <- [seq tag e | e <- perm]].
  rewrite map_inj_in_uniq // => -[i j] [i' j'] h h' /= E; rewrite E in h *.
  by rewrite (key_row h h').
rewrite -(big_map (fun e : entry => (tag e).1) xpredT f) -big_enum; apply: perm_big.
have -> : [seq (tag e).1 | e <- perm] = [seq x.1 | x <- [seq tag e | e <- perm]] by rewrite -map_comp.
apply: uniq_perm => //; first exact: enum_uniq.
have [] // := uniq_min_size u1 (s2 := enum 'I_k).
  by move=> x _; rewrite mem_enum.
by rewrite size_enum_ord !size_map sp.
Qed.
Lemma embed_dag i j (B : 'M[C]_((n i).+1, (n j).+1)) : dag (embed cg (mk B)) = \sum_(0 <= a < d i) cjM cg (P j a) *m (dag B *m dag (P i a)).
Proof. by rewrite embedE dag_sum; apply: eq_bigr => a _; rewrite !dag_mul dagK. Qed.
Lemma assemble_unitary : unitary S.
Proof.
rewrite /unitary /S dag_sum mulmx_suml.
transitivity (\sum_(e <- perm) proj (tag e).1); last by rewrite sum_rows; apply: compl.
rewrite [LHS]big_seq [RHS]big_seq; apply: eq_bigr => e pe; rewrite mulmx_sumr (bigD1_seq e) ?(map_uniq up) //=.
rewrite big_seq_cond big1 ?addr0.
  case: e pe => [[i j] B] pe; have [dij u] := gp pe; rewrite -[existT _ _ _]/(mk B) embed_dag embedE [X in _ *m X](_ : _ = \sum_(0 <= b < d j) cjM cg (P j b) *m (dag B *m dag (P i b))) ?dij //.
  rewrite -{1}dij glue_eq //; apply: eq_bigr => a _; by rewrite mulmxA -[_ *m B *m _]mulmxA u mulmx1.
move=> e' /andP[pe' ne]; case: e pe ne => [[i j] B] pe ne; case: e' pe' ne => [[i' j'] B'] pe' ne.
have [dij u] := gp pe; have [dij' u'] := gp pe'.
rewrite -/(mk B) -/(mk B') embed_dag embedE dij' glue_ne //.
apply/eqP => jj; rewrite /= in jj; move: pe' ne dij' u'; rewrite /= => pe' ne _ _.
have ii : i' = i by apply: (@key_col _ _ j'); [exact: (map_f (@tag _ _) pe')|rewrite -jj; exact: (map_f (@tag _ _) pe)].
by move/negP: ne; apply; apply/eqP; apply: same_tag => //=; rewrite ii jj.
Qed.

(* the square *)
Lemma cj_embed i j (B : 'M[C]_((n i).+1, (n j).+1)) :
  cjM cg (embed cg (mk B)) = \sum_(0 <= b < d i) cjM cg (P i b) *m (cjM cg B *m dag (P j b)).
Proof. by rewrite embedE cjM_sum; apply: eq_bigr => a _; rewrite !cjM_mul dag_cjM cjMK mulmxA. Qed.
Definition swap (ij : 'I_k * 'I_k) := (ij.2, ij.1).
Definition paired (e e' : entry) : Prop := tag e' = swap (tag e) ->
  exists2 s : C, s = 1 \/ [/\ cg, (tag e).1 = (tag e).2 & s = -1] & embed cg e *m cjM cg (embed cg e') = s *: proj (tag e).1.
Lemma paired_mk i j (B : 'M[C]_((n i).+1, (n j).+1)) (B' : 'M[C]_((n j).+1, (n i).+1)) (s : C) : d i = d j ->
  B *m cjM cg B' = s%:M -> embed cg (mk B) *m cjM cg (embed cg (mk B')) = s *: proj i.
Proof.
move=> dij E; rewrite cj_embed embedE glue_eq // scaler_sumr; apply: eq_bigr => a _.
by rewrite mulmxA -[_ *m B *m _]mulmxA E mul_mx_scalar -scalemxAl.
Qed.
Hypotheses (sym : key_matrix perm = (key_matrix perm)^T) (pp : forall e e', e \in perm -> e' \in perm -> paired e e').
Lemma assemble_square : exists2 s : 'I_k -> C, forall i, s i = 1 \/ (cg /\ s i = -1) & S *m cjM cg S = \sum_i s i *: proj i.
Proof.
have partner e : e \in perm -> exists2 e', e' \in perm & tag e' = swap (tag e).
  move=> pe; have : swap (tag e) \in [seq tag e | e <- perm].
    by rewrite keyE sym mxE -keyE -surjective_pairing map_f.
  by move=> /mapP[e' pe' ->]; exists e'.
have row i : exists s : C, (s = 1 \/ (cg /\ s = -1)) /\
    forall e e', e \in perm -> e' \in perm -> (tag e).1 = i -> tag e' = swap (tag e) -> embed cg e *m cjM cg (embed cg e') = s *: proj i.
  have [/hasP[e pe /eqP ei]|no] := boolP (has (fun e : entry => (tag e).1 == i) perm); last first.
    by exists 1; split; [left|move=> e e' pe _ ei; move/hasPn/(_ e pe): no; rewrite ei eqxx].
  have [e' pe' te'] := partner e pe; have [s hs es] := pp pe pe' te'.
  exists s; split; first by case: hs => [->|[c _ ->]]; [left|right].
  move=> f f' pf pf' fi tf'; have ef : f = e.
    apply: same_tag => //; rewrite [tag f]surjective_pairing [tag e]surjective_pairing fi ei; congr (_, _).
    have hf : (i, (tag f).2) \in [seq tag e | e <- perm] by rewrite -fi -surjective_pairing map_f.
    have he : (i, (tag e).2) \in [seq tag e | e <- perm] by rewrite -ei -surjective_pairing map_f.
    exact: key_row hf he.
  have ef' : f' = e' by apply: same_tag => //; rewrite tf' te' ef.
  by rewrite ef ef' es ei.
have [s hs] := fin_all_exists row; exists s; first by move=> i; case: (hs i).
rewrite -(sum_rows (fun i => s i *: proj i)) /S cjM_sum mulmx_suml.
rewrite [LHS]big_seq [RHS]big_seq; apply: eq_bigr => e pe; have [e' pe' te'] := partner e pe.
rewrite mulmx_sumr (bigD1_seq e') ?(map_uniq up) //= big_seq_cond big1 ?addr0.
  by rewrite (hs (tag e).1).2.
move=> f /andP[pf ne]; case: e pe te' => [[i j] B] pe te'; case: f pf ne => [[i' j'] B'] pf ne.
rewrite -/(mk B) -/(mk B') cj_embed embedE; have [dij _] := gp pe; apply: glue_ne => //; apply/eqP => /= jj.
move/negP: ne; apply; apply/eqP; apply: same_tag => //; rewrite te' /swap /=.
have h : (i', j') \in [seq tag e | e <- perm] by apply/mapP; exists (mk B').
have h' : (j, i) \in [seq tag e | e <- perm] by apply/mapP; exists e'.
by rewrite -jj in h *; rewrite (key_row h h').
Qed.
End Assemble.

(* ---- single blocks ---- *)
Theorem C62_unitary_block i (B : 'M[C]_((n i).+1)) c : unitary B -> B *m B = c%:M ->
  exists2 B' : 'M[C]_((n i).+1), nice_diag false B = Ok B' & [/\ B' *m B' = 1%:M, unitary B' & exists c', B' = c' *: B].
Proof.
move=> u E; have nc : `|c| = 1.
  have : c * conjc c = 1.
    have : (B *m B) *m dag (B *m B) = 1%:M.
      by rewrite dag_mul mulmxA -[B *m B *m _]mulmxA (u : B *m dag B = 1%:M) mulmx1.
    by rewrite E -[c%:M]scalemx1 dagZ dag1 -scalemxAl -scalemxAr mulmx1 scalerA => /matrixP /(_ 0 0); rewrite !mxE mulr1.
  by rewrite -sqr_normc => /eqP; rewrite sqrp_eq1 ?normr_ge0 // => /eqP.
have cz : c != 0 by rewrite -normr_eq0 nc oner_eq0.
exists ((sqrtc c)^-1 *: B).
  by rewrite /nice_diag (_ : pti _ = (true, c)) ?nc ?eqxx //; apply/ptiP.
split; last by exists (sqrtc c)^-1.
  by rewrite -scalemxAl -scalemxAr scalerA E -expr2 exprVn sqr_sqrtc scale_scalar_mx mulVf.
by rewrite /unitary dagZ -scalemxAl -scalemxAr scalerA sqrtc_norm nc invr1 (u : B *m dag B = 1%:M) scale1r.
Qed.
Theorem C62_antiunitary_block i (B : 'M[C]_((n i).+1)) c : unitary B -> B *m conjM B = c%:M ->
  nice_diag true B = Ok B /\ (c = 1 \/ c = -1).
Proof.
move=> u E; have uc : conjM B *m B^T = 1%:M.
  by have := congr1 (@conjM F _ _) (u : B *m dag B = 1%:M); rewrite conjM_mul conjM1 /dag conjMK.
have cr : conjc c = c.
  have : conjM B *m B = (conjc c)%:M.
    have := congr1 (@conjM F _ _) E; rewrite conjM_mul conjMK => ->.
    by apply/matrixP => x y; rewrite !mxE; case: (x == y); rewrite ?mulr1n ?mulr0n ?conjc0.
  move=> E'; have : B *m (conjM B *m B) = B *m conjM B *m B by rewrite mulmxA.
  rewrite E' E mul_mx_scalar mul_scalar_mx => /(congr1 (fun A => A *m dag B)).
  by rewrite -!scalemxAl (u : B *m dag B = 1%:M) => /matrixP /(_ 0 0); rewrite !mxE !mulr1.
have c2 : c * c = 1.
  have : (B *m conjM B) *m dag (B *m conjM B) = 1%:M.
    by rewrite dag_mul mulmxA -[B *m conjM B *m _]mulmxA (_ : conjM B *m dag (conjM B) = 1%:M) ?mulmx1 // /dag conjM_tr conjMK.
  rewrite E -[c%:M]scalemx1 dagZ dag1 cr -scalemxAl -scalemxAr mulmx1 scalerA => /matrixP /(_ 0 0).
  by rewrite !mxE mulr1.
have cc : c = 1 \/ c = -1 by move/eqP: c2; rewrite -expr2 sqrf_eq1 => /orP[/eqP|/eqP]; [left|right].
split=> //; rewrite /nice_diag (_ : pti _ = (true, c)); last by apply/ptiP.
by case: cc => ->; rewrite eqxx ?orbT.
Qed.

(* ---- the pairs of blocks in the dictionary ---- *)
Section Pairs.
Variables (m : nat) (HLs HRs : forall i : 'I_k, 'I_m -> 'M[C]_((n i).+1)).
Variables (solve : forall i j : 'I_k, seq 'M[C]_((n i).+1, (n j).+1)) (evs : 'I_k -> 'I_k -> bool).
Variables (cg ev_test : bool).
Definition sq_dict (bd : seq entry) := forall e e', e \in bd -> e' \in bd -> paired cg e e'.
Lemma nice_diag_sq i (B B' : 'M[C]_((n i).+1)) : nice_diag cg B = Ok B' ->
  exists2 s : C, s = 1 \/ (cg /\ s = -1) & B' *m cjM cg B' = s%:M.
Proof.
rewrite /nice_diag /cjM; case: (cg); case E : (pti _) => [b c]; case: ifP => // /andP[eb].
  by rewrite eb in E; move/ptiP: E => E h [<-]; exists c => //; case/orP: h => /eqP ->; [left|right].
rewrite eb in E; move/ptiP: E => E /eqP nc [<-]; exists 1; first by left.
have cz : c != 0 by rewrite -normr_eq0 nc oner_eq0.
by rewrite -scalemxAl -scalemxAr scalerA E -expr2 exprVn sqr_sqrtc scale_scalar_mx mulVf.
Qed.
Lemma block_step_sq bd ij bd' : sq_dict bd -> block_step d HLs HRs solve evs true cg ev_test bd ij = Ok bd' -> sq_dict bd'.
Proof.
move=> g; rewrite /block_step; case: ij => i j.
case: ifP => [_ [<-] //|_]; case: ifP => [_ [<-] //|/negbT]; rewrite negb_or !negbK => /andP[/eqP dij /eqP nij].
case: ifP => [_ [<-] //|_]; case: ifP => ij.
  case E : (find_block _ _ _ i i) => [[B|]|] //=; last by case=> <-.
  case E' : (nice_diag cg B) => [B'|] //= [<-].
  have [s hs es] := nice_diag_sq E'.
  have mem e : e \in dset (dset bd (mk B')) (mk B') -> e = mk B' \/ (e \in bd /\ tag e != (i, i)).
    by move=> /dset_in[->|[/dset_in[->|[h h']] _]]; [left|left|right].
  move=> e e' /mem[->|[he te]] /mem[->|[he' te']] tt //.
  - exists s; first by case: hs => [->|[c ->]]; [left|right].
    exact: paired_mk.
  - by move: te'; rewrite tt eqxx.
  - by move: te tt; case: (tag e) => x y /= te [ex ey]; rewrite -ex -ey eqxx in te.
  - exact: g.
case E : (find_block _ _ _ i j) => [[B|]|] //=; last by case=> <-.
have [_ u1 u2 _] := find_blockP nij dij E.
case=> <-; set V := nice_off cg B.
have eV : V = dag (cjM cg B) by rewrite /V /nice_off /cjM; case: (cg); rewrite // /dag conjM_tr conjMK.
have mem e : e \in dset (dset bd (mk B)) (mk V) -> [\/ e = mk B, e = mk V | [/\ e \in bd, tag e != (i, j) & tag e != (j, i)]].
  by move=> /dset_in[->|[/dset_in[->|[h h']] h2]]; [constructor 2|constructor 1|constructor 3].
have sw (x : 'I_k * 'I_k) (a b : 'I_k) : (a, b) = swap x -> x = (b, a) by case: x => x y [-> ->].
move=> e e' /mem[->|->|[he t1 t2]] /mem[->|->|[he' t1' t2']] tt.
- by move: tt => [ei _]; rewrite ei eqxx in ij.
- exists 1; [by left|apply: paired_mk => //].
  by rewrite eV dag_cjM cjMK u1.
- by move: t2'; rewrite tt eqxx.
- exists 1; [by left|apply: paired_mk => //].
  by rewrite eV dag_cjM -cjM_mul u2 cjM1.
- by move: tt => [ei _]; rewrite ei eqxx in ij.
- by move: t1'; rewrite tt eqxx.
- by move: t2; rewrite (sw _ _ _ tt) eqxx.
- by move: t1; rewrite (sw _ _ _ tt) eqxx.
- exact: g.
Qed.
Lemma find_blocks_sq bd : find_unitary_blocks d HLs HRs solve evs true cg ev_test = Ok bd -> sq_dict bd.
Proof.
have : sq_dict [::] by [].
rewrite /find_unitary_blocks; elim: (pairs k) [::] => [|ij ijs IH] bd0 g0 /=; first by case=> <-.
by case E : (block_step _ _ _ _ _ _ _ _ _ _) => [bd1|] //=; apply: IH; apply: block_step_sq E.
Qed.
End Pairs.

(* ---- theorems ---- *)
Section Main.
Variables (m : nat) (HL HR : 'I_m -> 'M[C]_N.+1) (cg sq : bool).
Variables (solve : forall i j : 'I_k, seq 'M[C]_((n i).+1, (n j).+1)) (evs : 'I_k -> 'I_k -> bool).
(* the coefficients of the transformed model are linear combinations of the (conjugated) original ones *)
Variable rho : 'M[C]_m.
Hypotheses (bd : forall t, block_diagonal (HR t)) (HLE : forall t, HL t = \sum_u rho t u *: cjM cg (HR u))
  (back : sq -> forall t, HR t = \sum_u rho t u *: cjM cg (HL u)).
Variable S : 'M[C]_N.+1.
Hypothesis ret : find_unitary d P HL HR cg sq solve evs = Ok (Some S).
Let Rs := red_R P HR.
Let Ls := red_L P HL cg.
Lemma red_LE i t : Ls i t = \sum_u rho t u *: cjM cg (Rs i u).
Proof.
rewrite /Ls /red_L -[PL _ _ _ _]/(cjM cg (P i 0)) HLE mulmx_sumr mulmx_suml; apply: eq_bigr => u _.
by rewrite -scalemxAr -scalemxAl dag_cjM -!cjM_mul.
Qed.
Lemma red_RE i t : sq -> Rs i t = \sum_u rho t u *: cjM cg (Ls i u).
Proof.
move=> s; rewrite /Rs /red_R (back s) mulmx_sumr mulmx_suml; apply: eq_bigr => u _.
by rewrite /Ls /red_L -[PL _ _ _ _]/(cjM cg (P i 0)) -scalemxAr -scalemxAl !dag_cjM !cjM_mul !cjMK.
Qed.
Lemma block_R (H : 'M[C]_N.+1) i a : block_diagonal H -> (a < d i)%N ->
  H *m P i a = P i a *m (dag (P i 0) *m H *m P i 0) /\ dag (P i a) *m H = (dag (P i 0) *m H *m P i 0) *m dag (P i a).
Proof.
case=> h eH.
have right b : (b < d i)%N -> H *m P i b = P i b *m h i.
  move=> hb; rewrite eH mulmx_suml (bigD1 i) //= [X in _ + X]big1 ?addr0 => [|j ji].
    rewrite mulmx_suml (eq_big_nat _ _ (F2 := fun c => if c == b then P i b *m h i else 0)).
      by rewrite big_mkord -big_mkcond /= (big_pred1 (Ordinal hb)).
    move=> c /andP[_ hc]; rewrite -mulmxA orth.1 //; case: eqP => [->|_]; first by rewrite mulmx1.
    by rewrite -[0%:R]/(0 : C) raddf0 mulmx0.
  by rewrite mulmx_suml big_nat_cond big1 // => c /andP[/andP[_ hc] _]; rewrite -mulmxA orth.2 // mulmx0.
have left b : (b < d i)%N -> dag (P i b) *m H = h i *m dag (P i b).
  move=> hb; rewrite eH mulmx_sumr (bigD1 i) //= [X in _ + X]big1 ?addr0 => [|j ji].
    rewrite mulmx_sumr (eq_big_nat _ _ (F2 := fun c => if c == b then h i *m dag (P i b) else 0)).
      by rewrite big_mkord -big_mkcond /= (big_pred1 (Ordinal hb)).
    move=> c /andP[_ hc]; rewrite -mulmxA mulmxA orth.1 // eq_sym; case: eqP => [->|_]; first by rewrite mul1mx.
    by rewrite -[0%:R]/(0 : C) raddf0 mul0mx.
  rewrite mulmx_sumr big_nat_cond big1 // => c /andP[/andP[_ hc] _].
  by rewrite -mulmxA mulmxA orth.2 // 1?eq_sym // mul0mx.
have -> : dag (P i 0) *m H *m P i 0 = h i by rewrite left // -mulmxA orth.1 // mulmx1.
by move=> ha; rewrite right // left.
Qed.
Lemma bd_of_ret : exists bd perm, [/\ find_unitary_blocks d Ls Rs solve evs sq cg (hermitian_test HL HR) = Ok bd,
  perm \in combinations bd k, key_matrix perm *m (key_matrix perm)^T = 1%:M, sq -> key_matrix perm = (key_matrix perm)^T
  & S = \sum_(e <- perm) embed cg e].
Proof.
move: ret; rewrite /find_unitary -/Ls -/Rs; case E : (find_unitary_blocks _ _ _ _ _ _ _ _) => [bd'|] //= Ec.
exists bd'.
have : exists2 perm, perm \in combinations bd' k & [/\ key_matrix perm *m (key_matrix perm)^T = 1%:M, sq -> key_matrix perm = (key_matrix perm)^T
  & S = \sum_(e <- perm) embed cg e].
  move: Ec; rewrite /construct_unitary; elim: (combinations bd' k) => //= perm perms IH.
  case: ifP => [_ /IH[p hp ep]|/negbFE/eqP h1]; first by exists p => //; rewrite inE hp orbT.
  case: ifP => [_ /IH[p hp ep]|h2]; first by exists p => //; rewrite inE hp orbT.
  case: ifP => // _ [<-]; exists perm; rewrite ?inE ?eqxx //; split=> // s; move: h2; rewrite s => /negbFE/eqP //.
by case=> perm hp [h1 h2 h3]; exists perm.
Qed.
Lemma dict_good bd' : find_unitary_blocks d Ls Rs solve evs sq cg (hermitian_test HL HR) = Ok bd' -> good_dict Ls Rs bd'.
Proof. by apply: (find_blocksP red_LE) => s i t; apply: red_RE. Qed.
Theorem C61_unitary : unitary S.
Proof.
have [bd' [perm [E hp pm _ ->]]] := bd_of_ret; have [sub sz] := combinationsP hp; have [u g] := dict_good E.
apply: assemble_unitary => //; last exact: subseq_uniq (map_subseq _ sub) u.
by move=> e /(mem_subseq sub) /g; case: e => [[i j] B] [dij u1 _ _].
Qed.
Theorem C61_intertwines t : S *m HL t = HR t *m S.
Proof.
have [bd' [perm [E hp pm _ ->]]] := bd_of_ret; have [sub sz] := combinationsP hp; have [u g] := dict_good E.
rewrite mulmx_suml mulmx_sumr [LHS]big_seq [RHS]big_seq; apply: eq_bigr => e /(mem_subseq sub) /g.
case: e => [[i j] B] [dij _ _ inter]; rewrite -/(mk B) embedE mulmx_suml mulmx_sumr; apply: eq_big_nat => a /andP[_ ha].
have hb : (a < d j)%N by rewrite -dij.
have -> : P i a *m B *m dag (cjM cg (P j a)) *m HL t = P i a *m (B *m Ls j t) *m dag (cjM cg (P j a)).
  rewrite -mulmxA (_ : dag (cjM cg (P j a)) *m HL t = Ls j t *m dag (cjM cg (P j a))) ?mulmxA //.
  rewrite red_LE HLE mulmx_sumr mulmx_suml; apply: eq_bigr => w _.
  by rewrite -scalemxAr -scalemxAl !dag_cjM -!cjM_mul (block_R (bd w) hb).2.
by rewrite inter !mulmxA (block_R (bd t) ha).1 !mulmxA.
Qed.
(* with this unitary part the element maps the model to itself *)
Theorem C61_invariant t : S *m HL t *m dag S = HR t.
Proof. by rewrite C61_intertwines -mulmxA (C61_unitary : S *m dag S = 1%:M) mulmx1. Qed.

Lemma square_signs : sq -> exists2 s : 'I_k -> C, forall i, s i = 1 \/ (cg /\ s i = -1) & S *m cjM cg S = \sum_i s i *: proj i.
Proof.
move=> s1; have [bd' [perm [E hp pm sy ->]]] := bd_of_ret; have [sub sz] := combinationsP hp; have [u g] := dict_good E.
rewrite s1 in E; have sqd := find_blocks_sq E.
apply: assemble_square => //.
- by move=> e /(mem_subseq sub) /g; case: e => [[i j] B] [dij u1 _ _].
- exact: subseq_uniq (map_subseq _ sub) u.
- exact: sy.
- by move=> e e' /(mem_subseq sub) he /(mem_subseq sub) he'; apply: sqd.
Qed.
Theorem C62_square_unitary : sq -> ~~ cg -> S *m S = 1%:M.
Proof.
move=> s1 nc; have [s hs] := square_signs s1; rewrite /cjM (negPf nc) => ->; rewrite -compl.
by apply: eq_bigr => i _; case: (hs i) => [->|[c _]]; [rewrite scale1r|rewrite c in nc].
Qed.
Theorem C62_square_antiunitary : sq -> cg ->
  exists2 s : 'I_k -> C, forall i, s i = 1 \/ s i = -1 & S *m conjM S = \sum_i s i *: \sum_(0 <= a < d i) P i a *m dag (P i a).
Proof.
move=> s1 c; have [s hs] := square_signs s1; rewrite /cjM c => ->; exists s => // i.
by case: (hs i) => [|[_]]; [left|right].
Qed.
End Main.
End Blocks.

(* ---- concrete case: the term diag(1, -1) under an antisymmetry; two blocks that are exchanged ---- *)
Section Example.
Variable F : rcfType.
Local Notation C := F[i].
Let n0 (i : 'I_2) := 0%N.
Let d0 (i : 'I_2) := 1%N.
Let P0 (i : 'I_2) (a : nat) : 'M[C]_(2, 1) := delta_mx i 0.
Let sg (i : 'I_2) : C := if i == 0 then 1 else -1.
Let H0 (t : 'I_1) : 'M[C]_2 := \matrix_(i, j) if i == j then sg i else 0.
Let solve0 (i j : 'I_2) : seq 'M[C]_1 := if i == j then [::] else [:: 1%:M].
Let X0 : 'M[C]_2 := \matrix_(i, j) (i != j)%:R.
Lemma ord2P (i : 'I_2) : i = 0 \/ i = 1.
Proof. by case: i => [[|[|]]] // h; [left|right]; apply: val_inj. Qed.
Lemma dag_delta (i : 'I_2) : dag (delta_mx i 0 : 'M[C]_(2, 1)) = delta_mx 0 i.
Proof. by apply/matrixP => x y; rewrite !mxE andbC conjc_nat. Qed.
Lemma sandwich (H : 'M[C]_2) i j : dag (delta_mx i 0 : 'M[C]_(2, 1)) *m H *m delta_mx j 0 = (H i j)%:M :> 'M[C]_1.
Proof.
rewrite dag_delta -rowE; apply/matrixP => x y; rewrite !ord1 !mxE eqxx mulr1n (bigD1 j) //= !mxE !eqxx mulr1 big1 ?addr0 //.
by move=> l lj; rewrite !mxE (negPf lj) mulr0.
Qed.
Lemma example_system : [/\ orthonormal d0 P0, complete d0 P0 & forall t, block_diagonal d0 P0 (H0 t)].
Proof.
have dd (i j : 'I_2) : dag (delta_mx i 0 : 'M[C]_(2, 1)) *m delta_mx j 0 = ((i == j)%:R)%:M :> 'M[C]_1.
  by have := sandwich 1%:M i j; rewrite mulmx1 mxE.
have s2 (f : 'I_2 -> nat -> 'M[C]_2) : \sum_i \sum_(0 <= a < d0 i) f i a = f 0 0%N + f 1 0%N.
  by rewrite !big_ord_recl big_ord0 addr0 /d0 !big_nat1; congr (_ + f _ _); apply: val_inj.
have pp (i : 'I_2) : delta_mx i 0 *m dag (delta_mx i 0 : 'M[C]_(2, 1)) = delta_mx i i by rewrite dag_delta mul_delta_mx.
split.
- split=> [i a b|i j a b ij _ _]; last by rewrite dd (negPf ij) raddf0.
  by rewrite /d0 !ltnS !leqn0 => /eqP -> /eqP ->; rewrite dd !eqxx.
- rewrite /complete s2 !pp; apply/matrixP => x y; rewrite !mxE.
  by case: (ord2P x) => ->; case: (ord2P y) => -> /=; rewrite ?addr0 ?add0r.
move=> t; exists (fun i => (sg i)%:M); rewrite s2 !mul_mx_scalar -!scalemxAl !pp; apply/matrixP => x y; rewrite !mxE /sg.
by case: (ord2P x) => ->; case: (ord2P y) => -> /=; rewrite ?mulr0 ?addr0 ?add0r ?mulr1.
Qed.
Let HL0 (t : 'I_1) : 'M[C]_2 := - H0 t.
Let evs0 (i j : 'I_2) := i != j.
Example C61_example : find_unitary d0 P0 HL0 H0 false true solve0 evs0 = Ok (Some X0).
Proof.
have pE : pairs 2 = [:: (0, 0); (0, 1); (1, 0); (1, 1)].
  by rewrite /pairs; have -> : enum 'I_2 = [:: 0; 1] by apply: (inj_map val_inj); rewrite val_enum_ord.
have rL i t : red_L P0 HL0 false i t = (- sg i)%:M.
  by rewrite /red_L /PL /P0 sandwich /HL0 !mxE eqxx.
have rR i t : red_R P0 H0 i t = (sg i)%:M by rewrite /red_R /P0 sandwich !mxE eqxx.
set L := red_L P0 HL0 false; set R := red_R P0 H0; set ev := hermitian_test HL0 H0.
have blk : find_block L R solve0 1 0 = Ok (Some (1%:M : 'M[C]_1)).
  have s1 : sqrtc ((n0 0).+1%:R : C) = 1 by exact: sqrtc1.
  rewrite /find_block /solve0 (_ : ((1 : 'I_2) == 0) = false) // s1 scale1r (_ : row_free _) /=; last by rewrite row_free_unit unitmx1.
  have -> : [forall t, 1%:M *m L 0 t == R 1 t *m (1%:M : 'M[C]_1)].
    by apply/forallP => t; rewrite /L /R rL rR mul1mx mulmx1 /sg.
  rewrite (_ : pti _ = (true, 1)); last by apply/ptiP; rewrite dag1 mulmx1.
  by rewrite sqrtc1 invr1 scale1r /= eqxx ltr01.
set bd0 := [:: @mk F 2 n0 1 0 1%:M; @mk F 2 n0 0 1 1%:M].
have E : find_unitary_blocks d0 L R solve0 evs0 true false ev = Ok bd0.
  rewrite /find_unitary_blocks pE.
  have diag bd (i : 'I_2) : block_step d0 L R solve0 evs0 true false ev bd (i, i) = Ok bd.
    rewrite /block_step ltnn /= eqxx /= /evs0 eqxx /= andbT; case: (ev) => //.
    by rewrite /find_block /solve0 eqxx.
  have up bd : block_step d0 L R solve0 evs0 true false ev bd (0, 1) = Ok bd by [].
  have dn : block_step d0 L R solve0 evs0 true false ev [::] (1, 0) = Ok bd0.
    by rewrite /block_step /= andbF blk /= /nice_off dag1 /bd0 /dset /=.
  by rewrite /block_loop diag {1}/Prelude.bind up {1}/Prelude.bind dn {1}/Prelude.bind diag.
rewrite /find_unitary -/L -/R -/ev E /= /construct_unitary /=.
have kE : key_matrix bd0 = \matrix_(i, j) (i != j)%:R.
  by apply/matrixP => x y; rewrite !mxE !inE /=; case: (ord2P x) => ->; case: (ord2P y) => ->.
have kT : (key_matrix bd0)^T = key_matrix bd0 by rewrite kE; apply/matrixP => x y; rewrite !mxE eq_sym.
have kk : key_matrix bd0 *m key_matrix bd0 = 1%:M.
  rewrite kE; apply/matrixP => x y; rewrite !mxE !big_ord_recl big_ord0 !mxE.
  by case: (ord2P x) => ->; case: (ord2P y) => ->.
rewrite -/bd0 kT kk eqxx /= eqxx /= !big_cons big_nil addr0.
have -> : embed d0 P0 false (@mk F 2 n0 1 0 1%:M) + embed d0 P0 false (@mk F 2 n0 0 1 1%:M) = X0.
  rewrite /embed /mk /d0 !big_nat1 !mulmx1 /P0 !dag_delta !mul_delta_mx; apply/matrixP => x y; rewrite !mxE.
  by case: (ord2P x) => ->; case: (ord2P y) => -> /=; rewrite ?addr0 ?add0r.
have -> // : (pti (X0 *m dag X0)).1.
have -> : X0 *m dag X0 = 1%:M.
  apply/matrixP => x y; rewrite !mxE !big_ord_recl big_ord0 !mxE !conjc_nat.
  by case: (ord2P x) => ->; case: (ord2P y) => -> /=; rewrite ?mulr0 ?mul0r ?mulr1 ?addr0 ?add0r.
by rewrite (_ : pti _ = (true, 1)) //; apply/ptiP.
Qed.
End Example.
Print Assumptions C61_unitary.
Print Assumptions C61_intertwines.
Print Assumptions C61_invariant.
Print Assumptions C62_unitary_block.
Print Assumptions C62_antiunitary_block.
Print Assumptions C62_square_unitary.
Print Assumptions C62_square_antiunitary.
