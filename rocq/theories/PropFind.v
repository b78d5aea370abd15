(* C99: _find_unitary finds the unitary part whenever there is one *)
From mathcomp Require Import all_ssreflect all_algebra zify.
From mathcomp Require Import complex.
From Verif Require Import Prelude LinSpan Tolerance PropTol Linalg SymBlocks PropBlocks.

Set Implicit Arguments.
Unset Strict Implicit.
Unset Printing Implicit Defensive.
Import Order.TTheory GRing.Theory Num.Theory.
Local Open Scope ring_scope.

Section Combinations.
Variable T : Type.
Lemma combinations_few (s : seq T) n : (size s < n)%N -> combinations s n = [::].
Proof. by elim: s n => [|x s IH] [|n] //= h; rewrite !IH //; exact: ltnW h. Qed.
Lemma combinations_all (s : seq T) : combinations s (size s) = [:: s].
Proof. by elim: s => //= x s ->; rewrite combinations_few. Qed.
End Combinations.

Section Positive.
Variable F : rcfType.
Local Notation C := F[i].
Lemma gram_diag m n (B : 'M[C]_(m, n)) x : (B *m dag B) x x = \sum_y `|B x y| ^+ 2.
Proof. by rewrite mxE; apply: eq_bigr => y _; rewrite !mxE sqr_normc. Qed.
Lemma gram_zero m n (B : 'M[C]_(m, n)) : B *m dag B = 0 -> B = 0.
Proof.
move=> e; apply/matrixP => x y; have := gram_diag B x; rewrite e !mxE => /esym/eqP; rewrite psumr_eq0 => [/allP h|z _]; last by rewrite exprn_ge0.
by have /eqP := h y (mem_index_enum y); move/eqP; rewrite sqrf_eq0 normr_eq0 => /eqP.
Qed.
(* a multiple of the identity that is B B^+ with nonzero B is a positive number *)
Lemma gram_scalar m n (B : 'M[C]_(m.+1, n)) c : B *m dag B = c%:M -> B != 0 -> 0 < c.
Proof.
move=> e B0; have e0 : c = \sum_y `|B 0 y| ^+ 2 by rewrite -gram_diag e mxE eqxx mulr1n.
rewrite lt_neqAle {2}e0 sumr_ge0 ?andbT => [|y _]; last by rewrite exprn_ge0.
by apply: contra B0 => /eqP c0; apply/eqP/gram_zero; rewrite e -c0 raddf0.
Qed.
Lemma cjM0 b m n : cjM b (0 : 'M[C]_(m, n)) = 0.
Proof. by case: b => //=; apply/matrixP => x y; rewrite !mxE conjc0. Qed.
Lemma cjMZ' b m n c (A : 'M[C]_(m, n)) : c *: cjM b A = cjM b (cj b c *: A).
Proof. by rewrite cjMZ; case: b => //=; rewrite conjcK. Qed.
End Positive.

(* ---- Schur's lemma for families that contain the adjoints ---- *)
Section Schur.
Variable F : rcfType.
Local Notation C := F[i].
Variables (m p q : nat) (A : 'I_m -> 'M[C]_p.+1) (B : 'I_m -> 'M[C]_q.+1) (ad : 'I_m -> 'I_m).
Hypotheses (adA : forall t, A (ad t) = dag (A t)) (adB : forall t, B (ad t) = dag (B t)).
Definition inter (X : 'M[C]_(q.+1, p.+1)) : Prop := forall t, X *m A t = B t *m X.
Definition irreducible r (D : 'I_m -> 'M[C]_r) : Prop := forall Y, (forall t, Y *m D t = D t *m Y) -> exists c, Y = c%:M.
Hypotheses (iA : irreducible A) (iB : irreducible B).
Lemma inter_dag X : inter X -> forall t, dag X *m B t = A t *m dag X.
Proof.
move=> h t; have := congr1 (@dag F _ _) (h (ad t)); rewrite !dag_mul adA adB !dagK => ->.
by [].
Qed.
Lemma inter_scalar X Y : inter X -> inter Y -> exists c, Y *m dag X = c%:M.
Proof.
move=> hX hY; apply: iB => t; rewrite -mulmxA (inter_dag hX) !mulmxA; congr (_ *m _); exact: hY.
Qed.
Lemma inter_scalar' X Y : inter X -> inter Y -> exists c, dag X *m Y = c%:M.
Proof. by move=> hX hY; apply: iA => t; rewrite -mulmxA hY !mulmxA (inter_dag hX). Qed.
Lemma schur X : inter X -> X != 0 -> exists c, [/\ 0 < c, X *m dag X = c%:M, dag X *m X = c%:M & p = q].
Proof.
move=> hX X0; have [c e] := inter_scalar hX hX; have [c' e'] := inter_scalar' hX hX.
have cp := gram_scalar e X0.
have cp' : 0 < c'.
  apply: (@gram_scalar _ _ _ (dag X)); first by rewrite dagK.
  by apply: contra X0 => /eqP z; rewrite -[X]dagK z; apply/eqP/matrixP => x y; rewrite !mxE conjc0.
have cc : c = c'.
  have : X *m dag X *m X = X *m (dag X *m X) by rewrite mulmxA.
  rewrite e e' mul_scalar_mx mul_mx_scalar => /eqP; rewrite -subr_eq0 -scalerBl scaler_eq0 (negPf X0) orbF subr_eq0.
  by move/eqP.
exists c; split=> //; first by rewrite e' cc.
have z : c != 0 by rewrite gt_eqF.
have r1 : row_free X.
  by apply/row_freeP; exists (c^-1 *: dag X); rewrite -scalemxAr e scale_scalar_mx mulVf.
have r2 : row_free (dag X).
  by apply/row_freeP; exists (c^-1 *: X); rewrite -scalemxAr e' -cc scale_scalar_mx mulVf.
have := rank_leq_col X; have := rank_leq_col (dag X); rewrite (eqP r1) (eqP r2) !ltnS => h1 h2.
by apply/eqP; rewrite eqn_leq h1 h2.
Qed.
Lemma schur_one X Y : inter X -> X != 0 -> inter Y -> exists c, Y = c *: X.
Proof.
move=> hX X0 hY; have [c [cp _ e' _]] := schur hX X0; have [b eb] := inter_scalar hX hY.
exists (b / c); have : Y *m dag X *m X = Y *m (dag X *m X) by rewrite mulmxA.
rewrite eb e' mul_scalar_mx mul_mx_scalar => /(congr1 (fun Z => c^-1 *: Z)); rewrite !scalerA mulVf ?gt_eqF // scale1r => <-.
by rewrite mulrC.
Qed.
End Schur.

Section Complete.
Variable F : rcfType.
Local Notation C := F[i].
Local Notation idf := [rmorphism of idfun].
Variables (N k : nat) (n d : 'I_k -> nat) (P : forall i : 'I_k, nat -> 'M[C]_(N.+1, (n i).+1)).
Hypotheses (orth : orthonormal d P) (compl : complete d P) (dpos : forall i, (0 < d i)%N).
Variables (m : nat) (HL HR : 'I_m -> 'M[C]_N.+1) (cg sq : bool).
Variables (solve : forall i j : 'I_k, seq 'M[C]_((n i).+1, (n j).+1)) (evs : 'I_k -> 'I_k -> bool).
Local Notation Rs := (red_R P HR).
Local Notation Ls := (red_L P HL cg).
Local Notation entry := (@entry F k n).
(* The coefficients of the transformed model are linear combinations of the (conjugated) original ones and vice
   versa; an element whose square is the identity takes the transformed model back. *)
Variable rho : 'M[C]_m.
Hypotheses (HLE : forall t, HL t = \sum_u rho t u *: cjM cg (HR u))
  (HRE : forall t, exists f : 'I_m -> C, cjM cg (HR t) = \sum_u f u *: HL u)
  (back : sq -> forall t, HR t = \sum_u rho t u *: cjM cg (HL u)).
(* both models are Hermitian: the coefficient of the conjugate monomial is the adjoint *)
Variable ad : 'I_m -> 'I_m.
Hypotheses (adR : forall t, HR (ad t) = dag (HR t)) (adL : forall t, HL (ad t) = dag (HL t)).
(* the blocks of the original model are irreducible and those of different arrays are not equivalent (C98) *)
Hypotheses (blockd : forall t, block_diagonal d P (HR t)) (irr : forall i, irreducible (Rs i))
  (ineq : forall i j X, i != j -> inter (Rs j) (Rs i) X -> X = 0).
(* solve_mat_eqn returns a basis of the solutions (C26); equivalent families of Hermitian matrices have the same eigenvalues *)
Hypotheses (solveP : forall i j, n i = n j -> is_basis idf (solve i j) (inter (Ls j) (Rs i)))
  (evsP : forall i j B, n i = n j -> hermitian_test HL HR -> B *m dag B = 1%:M -> dag B *m B = 1%:M -> inter (Ls j) (Rs i) B -> evs j i).

Lemma LsE i t : Ls i t = \sum_u rho t u *: cjM cg (Rs i u). Proof. exact: red_LE HLE i t. Qed.
Lemma Rad i t : Rs i (ad t) = dag (Rs i t). Proof. by rewrite /red_R adR !dag_mul dagK mulmxA. Qed.
Lemma Lad i t : Ls i (ad t) = dag (Ls i t). Proof. by rewrite /red_L adL !dag_mul dagK mulmxA. Qed.
(* intertwiners of the transformed blocks are those of the original ones *)
Lemma inter_L i j X : inter (Ls j) (Ls i) X -> inter (Rs j) (Rs i) (cjM cg X).
Proof.
move=> h t; apply: (can_inj (@cjMK F cg _ _)); rewrite [LHS]cjM_mul [RHS]cjM_mul cjMK.
have [g eg] := HRE t.
have e l : cjM cg (Rs l t) = \sum_u g u *: Ls l u.
  rewrite /red_R !cjM_mul eg mulmx_sumr mulmx_suml; apply: eq_bigr => u _.
  by rewrite -scalemxAr -scalemxAl -dag_cjM.
rewrite !e mulmx_sumr mulmx_suml; apply: eq_bigr => u _; by rewrite -scalemxAr -scalemxAl h.
Qed.
Lemma irrL i : irreducible (Ls i).
Proof.
move=> Y h; have [c e] := irr (inter_L h); exists (cj cg c); apply: (can_inj (@cjMK F cg _ _)).
rewrite e -scalemx1 -[RHS]/(cjM cg (cj cg c)%:M) -[(cj cg c)%:M]scalemx1 -cjMZ' cjM1 //.
Qed.
Lemma ineqL i j X : i != j -> inter (Ls j) (Ls i) X -> X = 0.
Proof. by move=> ij h; apply: (can_inj (@cjMK F cg _ _)); rewrite cjM0; apply: ineq ij (inter_L h). Qed.
Lemma schurL i j X : inter (Ls j) (Rs i) X -> X != 0 -> exists c, [/\ 0 < c, X *m dag X = c%:M, dag X *m X = c%:M & n j = n i].
Proof. by move=> hX X0; have [c [h1 h2 h3 h4]] := schur (Lad j) (Rad i) (@irrL j) (@irr i) hX X0; exists c. Qed.

Definition linked i j := d i = d j /\ exists2 X, inter (Ls j) (Rs i) X & X != 0.
Lemma find_blockC i j : n i = n j -> (exists B, [/\ find_block Ls Rs solve i j = Ok (Some B), B *m dag B = 1%:M & inter (Ls j) (Rs i) B])
  \/ (find_block Ls Rs solve i j = Ok None /\ forall X, inter (Ls j) (Rs i) X -> X = 0).
Proof.
move=> nij; have [ind sp] := solveP nij; rewrite /find_block; case E : (solve i j) => [|X rest].
  by right; split=> // X /sp; rewrite E => -[f ->]; rewrite comb_nil.
left; have hX : inter (Ls j) (Rs i) X by apply/sp; rewrite E; apply: span_mem; left.
have X0 : X != 0.
  apply/eqP => z; have := ind (fun t => (t == 0%N)%:R); rewrite E /comb big_ord_recl big1 ?addr0 /= => [|t _].
    by rewrite z scaler0 => /(_ erefl 0%N (ltn0Sn _)) /eqP; rewrite oner_eq0.
  by rewrite scale0r.
have r0 : rest = [::].
  case: rest E => // Y rest E; have hY : inter (Ls j) (Rs i) Y by apply/sp; rewrite E; apply: span_mem; right; left.
  have [c e] := schur_one (Lad j) (Rad i) (@irrL j) (@irr i) hX X0 hY.
  have := ind (fun t => if t is t'.+1 then (t' == 0%N)%:R else - c); rewrite E /comb big_ord_recl big_ord_recl big1 ?addr0 /= => [|t _].
    by rewrite e scale1r scaleNr addNr => /(_ erefl 1%N isT) /eqP; rewrite oner_eq0.
  by rewrite scale0r.
set a := sqrtc _; have a0 : a != 0 by rewrite /a sqrtc_eq0 pnatr_eq0.
have hB : inter (Ls j) (Rs i) (a *: X) by move=> t; rewrite -scalemxAl hX scalemxAr.
have B0 : a *: X != 0 by rewrite scaler_eq0 (negPf a0).
have [c [cp e e' _]] := schurL hB B0; have cz : c != 0 by rewrite gt_eqF.
have rf : row_free (a *: X) by apply/row_freeP; exists (c^-1 *: dag (a *: X)); rewrite -scalemxAr e scale_scalar_mx mulVf.
have all : [forall t, a *: X *m Ls j t == Rs i t *m (a *: X)] by apply/forallP => t; rewrite hB.
exists ((sqrtc c)^-1 *: (a *: X)); rewrite r0 /= rf all /=; have -> : pti (a *: X *m dag (a *: X)) = (true, c) by apply/ptiP.
move: (cp); rewrite ltcE /= => /andP[/eqP <- ->]; rewrite eqxx /=; split=> //.
  by rewrite dagZ -scalemxAl -scalemxAr scalerA sqrtc_norm e gtr0_norm // scale_scalar_mx mulVf.
by move=> t; rewrite -scalemxAl hB scalemxAr.
Qed.
Lemma LsR i j B t : sq -> inter (Ls j) (Rs i) B -> Ls i t *m cjM cg B = cjM cg B *m Rs j t.
Proof.
move=> s hB; rewrite LsE (red_RE P back j t s) mulmx_suml mulmx_sumr; apply: eq_bigr => u _.
by rewrite -scalemxAl -scalemxAr -!cjM_mul hB.
Qed.
Lemma nice_diagC i B : sq -> B *m dag B = 1%:M -> inter (Ls i) (Rs i) B -> exists B', nice_diag cg B = Ok B'.
Proof.
move=> s u hB; have [c e] : exists c, B *m cjM cg B = c%:M.
  by apply: (@irr i) => t; rewrite -mulmxA -(LsR t s hB) mulmxA hB mulmxA.
case E : cg e => /= e; last by have [B' e' _] := C62_unitary_block u e; exists B'.
by have [e' _] := C62_antiunitary_block u e; exists B.
Qed.
Lemma linked_sym i j : sq -> linked i j -> linked j i.
Proof.
move=> s [dij [X hX X0]]; split=> //; exists (dag (cjM cg X)).
  have [c [cp e e' _]] := schurL hX X0; move=> t.
  have f1 : dag (cjM cg X) *m cjM cg X = cjM cg (c%:M) by rewrite dag_cjM -cjM_mul e'.
  have f2 : cjM cg X *m dag (cjM cg X) = cjM cg (c%:M) by rewrite dag_cjM -cjM_mul e.
  have fc r : cjM cg (c%:M : 'M[C]_r) = (cj cg c)%:M by rewrite -[c%:M]scalemx1 cjMZ cjM1 scalemx1.
  have cz : cj cg c != 0 by rewrite /cj; case: (cg); rewrite ?conjc_eq0 gt_eqF.
  rewrite !fc in f1 f2; apply: (scalerI cz); rewrite -mul_mx_scalar -f2 mulmxA.
  rewrite -[dag _ *m Ls i t *m _]mulmxA (LsR t s hX) [dag _ *m (_ *m _)]mulmxA f1 mul_scalar_mx -scalemxAl.
  by [].
apply: contra X0 => /eqP z; apply/eqP; apply: (can_inj (@cjMK F cg _ _)); rewrite cjM0 -[LHS]dagK z.
by apply/matrixP => x y; rewrite !mxE conjc0.
Qed.
Definition keys (bd : seq entry) := [seq tag x | x <- bd].
Lemma keys_dset bd e : keys (dset bd e) =i tag e :: keys bd.
Proof.
move=> x; rewrite /keys /dset; case: ifP => h.
  have -> : [seq tag x | x <- [seq (if tag x == tag e then e else x) | x <- bd]] = [seq tag x | x <- bd].
    by rewrite -map_comp; apply: eq_map => y /=; case: eqP.
  by rewrite inE; case: eqP => // ->.
by rewrite map_rcons mem_rcons.
Qed.
Definition stepped bd0 (i j : 'I_k) r := exists bd1, [/\ r = Ok bd1, {subset keys bd0 <= keys bd1} &
  ~~ (sq && (i < j)%N) -> linked i j -> (i, j) \in keys bd1 /\ (sq -> (j, i) \in keys bd1)].
Local Notation ev := (hermitian_test HL HR).
Lemma block_stepC bd0 i j : stepped bd0 i j (block_step d Ls Rs solve evs sq cg ev bd0 (i, j)).
Proof.
rewrite /block_step; case: ifP => sk; first by exists bd0; rewrite sk; split.
have nl (c : bool) : c -> (linked i j -> ~~ c) -> stepped bd0 i j (Ok bd0).
  by move=> hc h; exists bd0; split=> // _ /h; rewrite hc.
case: ifP => [/nl|]; first apply.
  by move=> [dij [X hX X0]]; have [c [_ _ _ e]] := schurL hX X0; rewrite dij e !eqxx.
move=> /negbT; rewrite negb_or !negbK => /andP[_ /eqP nij]; case: ifP => [/nl|_]; first apply.
  have [hev|] := boolP ev => //.
  move=> [dij [X hX X0]]; have [c [cp e1 e2 _]] := schurL hX X0; have cz : c != 0 by rewrite gt_eqF.
  have u1 : ((sqrtc c)^-1 *: X) *m dag ((sqrtc c)^-1 *: X) = 1%:M.
    by rewrite dagZ -scalemxAl -scalemxAr scalerA sqrtc_norm e1 gtr0_norm // scale_scalar_mx mulVf.
  have u2 : dag ((sqrtc c)^-1 *: X) *m ((sqrtc c)^-1 *: X) = 1%:M.
    by rewrite dagZ -scalemxAl -scalemxAr scalerA mulrC sqrtc_norm e2 gtr0_norm // scale_scalar_mx mulVf.
  rewrite (evsP nij hev u1 u2) ?andbF // => t; by rewrite -scalemxAl hX scalemxAr.
have done bd1 : (forall x, x \in keys bd1 = [|| x == (i, j), sq && (x == (j, i)) | x \in keys bd0]) ->
    stepped bd0 i j (Ok bd1).
  move=> h; exists bd1; split=> // [x hx|_ _]; first by rewrite h hx !orbT.
  by rewrite !h eqxx; split=> // ->; rewrite eqxx orbT.
have none : (forall X, inter (Ls j) (Rs i) X -> X = 0) -> stepped bd0 i j (Ok bd0).
  by move=> z; exists bd0; split=> // _ [_ [X /z ->]]; rewrite eqxx.
case: ifP => [/eqP ij|ij].
  subst j; case: (@find_blockC i i erefl) => [[B [-> u hB]]|[-> z]] /=; last exact: none.
  case: ifP => s; last by apply: done => x; rewrite keys_dset inE s.
  have [B' ->] := nice_diagC s u hB; apply: done => x.
  by rewrite keys_dset inE keys_dset inE s.
case: (find_blockC nij) => [[B [-> u hB]]|[-> z]] /=; last exact: none.
case: ifP => s; last by apply: done => x; rewrite keys_dset inE s.
by apply: done => x; rewrite keys_dset inE keys_dset inE s /= orbCA.
Qed.
Lemma find_blocksC : exists bd, [/\ find_unitary_blocks d Ls Rs solve evs sq cg ev = Ok bd, good_dict d Ls Rs bd &
  forall i j, (i, j) \in keys bd <-> linked i j].
Proof.
have loop ijs bd0 : exists bd, [/\ block_loop d Ls Rs solve evs sq cg ev bd0 ijs = Ok bd, {subset keys bd0 <= keys bd} &
    forall i j, (i, j) \in ijs -> ~~ (sq && (i < j)%N) -> linked i j -> (i, j) \in keys bd /\ (sq -> (j, i) \in keys bd)].
  elim: ijs bd0 => [|[i j] ijs IH] bd0; first by exists bd0; split.
  have [bd1 [e1 s1 h1]] := block_stepC bd0 i j; have [bd [e2 s2 h2]] := IH bd1; exists bd; split=> [|x /s1/s2 //|a b].
    by transitivity (do b' <- block_step d Ls Rs solve evs sq cg ev bd0 (i, j); block_loop d Ls Rs solve evs sq cg ev b' ijs); rewrite // e1.
  rewrite inE => /orP[/eqP[-> ->] ns l|]; last exact: h2.
  by have [l1 l2] := h1 ns l; split=> [|/l2]; apply: s2.
have [bd [e _ h]] := loop (pairs k) [::]; exists bd; have g := find_blocksP LsE (fun s i t => red_RE P back i t s) e.
split=> // i j; split=> [/mapP[[[a b] B] /g.2[dij u1 _ hB] [-> ->]]|l].
  split=> //; exists B => //; apply/eqP => z; move/matrixP/(_ 0 0): u1; rewrite z mul0mx !mxE => /eqP.
  by rewrite eq_sym oner_eq0.
have all a b : (a, b) \in pairs k by apply/allpairsP; exists (a, b); rewrite !mem_enum.
have [ns|] := boolP (sq && (i < j)%N); last by move=> ns; have [] := h i j (all i j) ns l.
have /andP[s ij] := ns; have [//|_] := h j i (all j i) _ (linked_sym s l); last exact.
by rewrite negb_and -leqNgt (ltnW ij) orbT.
Qed.
Lemma inter_comp a b c (A : 'I_m -> 'M[C]_a) (B : 'I_m -> 'M[C]_b) (D : 'I_m -> 'M[C]_c) X Y :
  (forall t, X *m A t = B t *m X) -> (forall t, Y *m B t = D t *m Y) -> forall t, (Y *m X) *m A t = D t *m (Y *m X).
Proof. by move=> h1 h2 t; rewrite -mulmxA h1 mulmxA h2 mulmxA. Qed.
Definition link i j := exists2 X, inter (Ls j) (Rs i) X & X != 0.
Lemma link_row i j j' : link i j -> link i j' -> j = j'.
Proof.
move=> [X hX X0] [Y hY Y0]; apply/eqP; apply: contraT => jj; have [c [cp e e' _]] := schurL hX X0.
have /(ineqL jj) z : inter (Ls j') (Ls j) (dag X *m Y) by apply: inter_comp hY (inter_dag (Lad j) (Rad i) hX).
case/negP: Y0; have : X *m (dag X *m Y) = 0 by rewrite z mulmx0.
by rewrite mulmxA e mul_scalar_mx => /eqP; rewrite scaler_eq0 gt_eqF.
Qed.
Lemma link_col i i' j : link i j -> link i' j -> i = i'.
Proof.
move=> [X hX X0] [Y hY Y0]; apply/eqP; apply: contraT; rewrite eq_sym => ii; have [c [cp e e' _]] := schurL hX X0.
have /(ineq ii) z : inter (Rs i) (Rs i') (Y *m dag X) by apply: inter_comp (inter_dag (Lad j) (Rad i) hX) hY.
case/negP: Y0; have : Y *m dag X *m X = 0 by rewrite z mul0mx.
by rewrite -mulmxA e' mul_mx_scalar => /eqP; rewrite scaler_eq0 gt_eqF.
Qed.

(* the dictionary is a permutation matrix as soon as it has k entries *)
Lemma construct_some bd0 : good_dict d Ls Rs bd0 -> (forall i j, (i, j) \in keys bd0 <-> linked i j) -> size bd0 = k ->
  exists S, construct_unitary d P cg sq bd0 = Ok (Some S).
Proof.
move=> [u g] l sz; rewrite /construct_unitary; have -> : combinations bd0 k = [:: bd0] by rewrite -[X in combinations _ X]sz combinations_all.
rewrite /=.
have u1 : uniq [seq x.1 | x <- keys bd0].
  rewrite map_inj_in_uniq // => -[i j] [i' j'] /l[_ h] /l[_ h'] /= E; rewrite E in h *.
  by rewrite (link_row h h').
have row i : exists j, (i, j) \in keys bd0.
  have [] := uniq_min_size u1 (s2 := enum 'I_k); first by move=> x _; rewrite mem_enum.
    by rewrite size_enum_ord !size_map sz.
  by move=> _ /(_ i); rewrite mem_enum => /mapP[[a j] h /= ->]; exists j.
have M1 : key_matrix bd0 *m (key_matrix bd0)^T = 1%:M.
  apply/matrixP => i i'; rewrite !mxE; have [j hj] := row i.
  rewrite (bigD1 j) //= big1 ?addr0 => [|j' jj].
    rewrite !mxE hj mul1r; case: eqP => [<-|ii]; first by rewrite hj.
    case: (boolP ((i', j) \in _)) => // /l[_ h']; case: ii; move/l: hj => [_ h]; apply: link_col h h'.
  rewrite !mxE; case: (boolP ((i, j') \in _)) => [|_]; last by rewrite mul0r.
  by move=> /l[_ h']; case/eqP: jj; move/l: hj => [_ h]; apply: link_row h' h.
have M2 : sq -> key_matrix bd0 = (key_matrix bd0)^T.
  move=> s; apply/matrixP => i j; rewrite !mxE; congr (nat_of_bool _)%:R; apply/idP/idP => /l h; apply/l; exact: linked_sym.
rewrite M1 eqxx /=; case: ifP => [/andP[s]|_]; first by rewrite -(M2 s) eqxx.
have -> : (pti ((\sum_(e <- bd0) embed d P cg e) *m dag (\sum_(e <- bd0) embed d P cg e))).1.
  rewrite (_ : pti _ = (true, 1)) //; apply/ptiP; apply: assemble_unitary => // e /g.
  by case: e => [[i j] B] [dij uu _ _].
by eexists.
Qed.

(* ---- an intertwiner of the whole Hamiltonians gives a partner to every block ---- *)
Section Given.
Variables (U V : 'M[C]_N.+1).
Hypotheses (UV : U *m V = 1%:M) (VU : V *m U = 1%:M) (hU : forall t, U *m HL t = HR t *m U).
Local Notation Q j b := (cjM cg (P j b)).
Lemma hV t : V *m HR t = HL t *m V.
Proof. by rewrite -[LHS]mulmx1 -UV !mulmxA -[V *m _ *m U]mulmxA -hU !mulmxA VU mul1mx. Qed.
Lemma HL_right t j b : (b < d j)%N -> HL t *m Q j b = Q j b *m Ls j t.
Proof.
move=> hb; rewrite LsE HLE mulmx_suml mulmx_sumr; apply: eq_bigr => w _.
by rewrite -scalemxAl -scalemxAr -!cjM_mul (block_R orth dpos (blockd w) hb).1.
Qed.
Lemma HL_left t j b : (b < d j)%N -> dag (Q j b) *m HL t = Ls j t *m dag (Q j b).
Proof.
move=> hb; rewrite LsE HLE mulmx_suml mulmx_sumr; apply: eq_bigr => w _.
by rewrite -scalemxAl -scalemxAr dag_cjM -!cjM_mul (block_R orth dpos (blockd w) hb).2.
Qed.
Definition ublk i a j b : 'M[C]_((n i).+1, (n j).+1) := dag (P i a) *m U *m Q j b.
Definition vblk j b i a : 'M[C]_((n j).+1, (n i).+1) := dag (Q j b) *m V *m P i a.
Lemma ublkP i a j b : (a < d i)%N -> (b < d j)%N -> inter (Ls j) (Rs i) (ublk i a j b).
Proof.
move=> ha hb t; rewrite /ublk -mulmxA -(HL_right t hb) mulmxA -[_ *m U *m _]mulmxA hU mulmxA.
by rewrite (block_R orth dpos (blockd t) ha).2 -!mulmxA.
Qed.
Lemma vblkP i a j b : (a < d i)%N -> (b < d j)%N -> inter (Ls j) (Rs i) (dag (vblk j b i a)).
Proof.
move=> ha hb; have h t : vblk j b i a *m Rs i t = Ls j t *m vblk j b i a.
  rewrite /vblk -mulmxA -(block_R orth dpos (blockd t) ha).1 mulmxA -[_ *m V *m _]mulmxA hV mulmxA.
  by rewrite HL_left // -!mulmxA.
exact: (inter_dag (Rad i) (Lad j) h).
Qed.
Lemma complQ : \sum_i \sum_(0 <= a < d i) Q i a *m dag (Q i a) = 1%:M.
Proof.
rewrite -(cjM1 F cg) -[in RHS]compl cjM_sum; apply: eq_bigr => i _; rewrite cjM_sum; apply: eq_bigr => a _.
by rewrite cjM_mul dag_cjM.
Qed.
Lemma vu j b b' : (b < d j)%N -> (b' < d j)%N ->
  \sum_i \sum_(0 <= a < d i) vblk j b i a *m ublk i a j b' = ((b == b')%:R)%:M.
Proof.
move=> hb hb'; rewrite -(orth_cj orth cg hb hb') -[cjM cg (P j b') in RHS]mul1mx -VU -[V in RHS]mulmx1 -[1%:M in RHS]compl.
rewrite mulmx_sumr !mulmx_suml mulmx_sumr; apply: eq_bigr => i _; rewrite mulmx_sumr !mulmx_suml mulmx_sumr; apply: eq_bigr => a _.
by rewrite /vblk /ublk !mulmxA.
Qed.
Lemma uv i a a' : (a < d i)%N -> (a' < d i)%N ->
  \sum_j \sum_(0 <= b < d j) ublk i a j b *m vblk j b i a' = ((a == a')%:R)%:M.
Proof.
move=> ha ha'; rewrite -(orth.1 i a a' ha ha') -[P i a' in RHS]mul1mx -UV -[U in RHS]mulmx1 -[1%:M in RHS]complQ.
rewrite mulmx_sumr !mulmx_suml mulmx_sumr; apply: eq_bigr => j _; rewrite mulmx_sumr !mulmx_suml mulmx_sumr; apply: eq_bigr => b _.
by rewrite /vblk /ublk !mulmxA.
Qed.
Lemma coefP i j X c (Y : 'M[C]_((n i).+1, (n j).+1)) : inter (Ls j) (Rs i) X -> X != 0 -> dag X *m X = c%:M -> inter (Ls j) (Rs i) Y ->
  Y = ((dag X *m Y) 0 0 / c) *: X.
Proof.
move=> hX X0 e hY; have [b eb] := schur_one (Lad j) (Rad i) (@irrL j) (@irr i) hX X0 hY.
have cz : c != 0.
  by have [c' [cp _ e' _]] := schurL hX X0; move/matrixP/(_ 0 0): e'; rewrite e !mxE eqxx !mulr1n => ->; rewrite gt_eqF.
by rewrite {1}eb; congr (_ *: _); rewrite eb -scalemxAr e !mxE eqxx mulr1n mulfK.
Qed.
Lemma cover j : exists i, linked i j.
Proof.
have nz : exists i, exists2 a : 'I_(d i), ublk i a j 0 != 0 & True.
  have [/existsP[i /existsP[a h]]|/existsPn no] := boolP [exists i, exists a : 'I_(d i), ublk i a j 0 != 0]; first by exists i, a.
  have := vu (dpos j) (dpos j); rewrite big1 => [/esym/matrixP/(_ 0 0)/eqP|i _]; first by rewrite !mxE eqxx oner_eq0.
  rewrite big_mkord big1 // => a _; have /existsPn/(_ a) := no i; by rewrite negbK => /eqP ->; rewrite mulmx0.
have [i [a X0 _]] := nz; exists i; set X := ublk i a j 0 in X0.
have hX : inter (Ls j) (Rs i) X by apply: ublkP.
have l : link i j by exists X.
have [c [cp _ e nn]] := schurL hX X0; have cz : c != 0 by rewrite gt_eqF.
split; last by exists X.
pose mu : 'M[C]_(d i, d j) := \matrix_(a, b) ((dag X *m ublk i a j b) 0 0 / c).
pose nu : 'M[C]_(d i, d j) := \matrix_(a, b) ((dag X *m dag (vblk j b i a)) 0 0 / c).
have um (x : 'I_(d i)) (y : 'I_(d j)) : ublk i x j y = mu x y *: X by rewrite mxE; apply: coefP => //; apply: ublkP.
have vm (x : 'I_(d i)) (y : 'I_(d j)) : vblk j y i x = conjc (nu x y) *: dag X.
  by rewrite -dagZ -[LHS]dagK; congr (dag _); rewrite mxE; apply: coefP => //; apply: vblkP.
have h1 : (c *: dag nu) *m mu = 1%:M.
  apply/matrixP => y y'; have := vu (ltn_ord y) (ltn_ord y'); rewrite (bigD1 i) //= [X in _ + X]big1 ?addr0 => [|i' ii].
    rewrite big_mkord => h; transitivity (\sum_(x < d i) (vblk j y i x *m ublk i x j y') 0 0).
      rewrite mxE; apply: eq_bigr => x _; rewrite um vm -scalemxAl -scalemxAr scalerA e !mxE eqxx mulr1n.
      by rewrite [c * _]mulrC mulrAC.
    by rewrite -[LHS](summxE (index_enum _)) h !mxE.
  rewrite big_mkord big1 // => x _; suff -> : ublk i' x j y' = 0 by rewrite mulmx0.
  apply/eqP; apply: contraT => z; case/eqP: ii; apply: (@link_col _ _ j) => //; exists (ublk i' x j y') => //; exact: ublkP.
have h2 : mu *m (c *: dag nu) = 1%:M.
  apply/matrixP => x x'; have := uv (ltn_ord x) (ltn_ord x'); rewrite (bigD1 j) //= [X in _ + X]big1 ?addr0 => [|j' jj].
    rewrite big_mkord => h; transitivity (\sum_(y < d j) (ublk i x j y *m vblk j y i x') 0 0).
      rewrite mxE; apply: eq_bigr => y _; have [c' [_ e1 e2 _]] := schurL hX X0.
      have cc : c' = c by move/matrixP/(_ 0 0): e2; rewrite e !mxE eqxx !mulr1n.
      by rewrite um vm -scalemxAl -scalemxAr scalerA e1 cc !mxE eqxx mulr1n [c * _]mulrC mulrA.
    by rewrite -[LHS](summxE (index_enum _)) h !mxE.
  rewrite big_mkord big1 // => y _; suff -> : ublk i x j' y = 0 by rewrite mul0mx.
  apply/eqP; apply: contraT => z; case/eqP: jj; apply: (@link_row i) => //; exists (ublk i x j' y) => //; exact: ublkP.
have r1 : row_free mu by apply/row_freeP; exists (c *: dag nu).
have r2 : row_free (c *: dag nu) by apply/row_freeP; exists mu.
have := rank_leq_col mu; have := rank_leq_col (c *: dag nu); rewrite (eqP r1) (eqP r2) => g1 g2.
by apply/eqP; rewrite eqn_leq g1 g2.
Qed.
End Given.

(* what _find_unitary returns: a unitary part of the symmetry if there is one, and nothing otherwise *)
Theorem C99_decides : exists2 r, find_unitary d P HL HR cg sq solve evs = Ok r &
  if r is Some S' then unitary S' /\ (forall t, S' *m HL t = HR t *m S')
  else forall U : 'M[C]_N.+1, U \in unitmx -> ~ (forall t, U *m HL t = HR t *m U).
Proof.
have [bd0 [e g l]] := find_blocksC.
have ret r : construct_unitary d P cg sq bd0 = Ok r -> find_unitary d P HL HR cg sq solve evs = Ok r.
  by move=> er; rewrite /find_unitary e /= er.
have [sz|sz] := eqVneq (size bd0) k.
  have [S eS] := construct_some g l sz; exists (Some S); first exact: ret.
  split; first exact: (C61_unitary orth compl HLE back (ret _ eS)).
  by move=> t; exact: (C61_intertwines orth dpos blockd HLE back (ret _ eS)).
have u2 : uniq [seq x.2 | x <- keys bd0].
  rewrite map_inj_in_uniq ?g.1 // => -[i j] [i' j'] /l[_ h] /l[_ h'] /= E; rewrite E in h *.
  by rewrite (link_col h h').
have lt : (size bd0 < k)%N.
  rewrite ltn_neqAle sz -(size_map (@tag _ _) bd0) -(size_map snd) -[X in (_ <= X)%N](size_enum_ord k).
  by apply: (uniq_leq_size u2) => x _; rewrite mem_enum.
exists None; first by apply: ret; rewrite /construct_unitary combinations_few.
move=> U iU hU; have := cover (mulmxV iU) (mulVmx iU) hU => cv.
have : (size (enum 'I_k) <= size [seq x.2 | x <- keys bd0])%N.
  apply: uniq_leq_size; first exact: enum_uniq.
  by move=> j _; have [i /l h] := cv j; apply/mapP; exists (i, j).
by rewrite size_enum_ord !size_map leqNgt lt.
Qed.
(* every invertible solution is found, and the result is then unitary *)
Theorem C99_complete U : U \in unitmx -> (forall t, U *m HL t = HR t *m U) ->
  exists S, [/\ find_unitary d P HL HR cg sq solve evs = Ok (Some S), unitary S & forall t, S *m HL t = HR t *m S].
Proof. by move=> iU hU; have [[S|] -> h] := C99_decides; [exists S; case: h|case: (h U iU hU)]. Qed.
End Complete.

(* ---- concrete case: one band with the term 1 or i times a monomial that is its own conjugate; the antisymmetry is
   rejected, complex conjugation and the identity are found ---- *)
Section Example.
Variable F : rcfType.
Local Notation C := F[i].
Let n1 (i : 'I_1) := 0%N.
Let d1 (i : 'I_1) := 1%N.
Let P1 (i : 'I_1) (a : nat) : 'M[C]_(1, 1) := 1%:M.
Variables (s : bool) (cg : bool).
Let sg : C := (-1) ^+ s.
Let HR1 (t : 'I_1) : 'M[C]_1 := 1%:M.
Let HL1 (t : 'I_1) : 'M[C]_1 := sg *: 1%:M.
Let solve1 (i j : 'I_1) : seq 'M[C]_1 := if s then [::] else [:: 1%:M].
Let evs1 (i j : 'I_1) := ~~ s.
Let sg2 : sg * sg = 1. Proof. by rewrite /sg -signr_addb addbb. Qed.
Let csg b : cj b sg = sg. Proof. by case: b => //; apply: (rmorph_sign (conjc_rmorphism F)). Qed.
Example C99_example : exists2 r, find_unitary d1 P1 HL1 HR1 cg true solve1 evs1 = Ok r &
  if r is Some U then ~~ s /\ unitary U else s.
Proof.
have cP i a : cjM cg (P1 i a) = 1%:M by rewrite /P1 cjM1.
have rR i t : red_R P1 HR1 i t = 1%:M by rewrite /red_R /P1 /HR1 dag1 !mulmx1.
have rL i t : red_L P1 HL1 cg i t = sg *: 1%:M.
  by rewrite /red_L -[PL _ _ _ _]/(cjM cg (P1 i 0%N)) cP dag1 mul1mx mulmx1.
have s1 (x : 'M[C]_1) : x = (x 0 0)%:M by apply/matrixP => i j; rewrite !ord1 mxE eqxx mulr1n.
have two : (2%:R : C) != 0 by rewrite pnatr_eq0.
have it i j X : inter (red_L P1 HL1 cg j) (red_R P1 HR1 i) X <-> (s -> X = 0).
  split=> [h s0|h t]; last first.
    rewrite rR rL -scalemxAr mulmx1 mul1mx; case E : s => //; first by rewrite h ?E // scaler0.
    by rewrite /sg E expr0 scale1r.
  have := h 0; rewrite rR rL -scalemxAr mulmx1 mul1mx /sg s0 expr1 scaleN1r => /eqP; rewrite eq_sym -subr_eq0 opprK -mulr2n -scaler_nat scaler_eq0 (negPf two).
  by move/eqP.
have [] := @C99_decides F 0 1 n1 d1 P1 _ _ _ 1 HL1 HR1 cg true solve1 evs1 (sg%:M) _ _ _ id _ _ _ _ _ _ _.
- split=> [i a b|i j]; last by rewrite !ord1 eqxx.
  by rewrite /d1 !ltnS !leqn0 => /eqP -> /eqP ->; rewrite /P1 dag1 mulmx1 eqxx.
- by rewrite /complete big_ord1 /d1 big_nat1 /P1 dag1 mulmx1.
- by [].
- by move=> t; rewrite big_ord1 !ord1 mxE eqxx mulr1n /HR1 cjM1.
- by move=> t; exists (fun=> sg); rewrite big_ord1 /HL1 /HR1 scalerA sg2 scale1r cjM1.
- by move=> _ t; rewrite big_ord1 !ord1 mxE eqxx mulr1n /HL1 cjMZ csg cjM1 scalerA sg2 scale1r.
- by move=> t; rewrite /HR1 dag1.
- by move=> t; rewrite /HL1 dagZ dag1 -[conjc sg]/(cj true sg) csg.
- by move=> t; exists (fun=> 1%:M); rewrite big_ord1 /d1 big_nat1 /P1 dag1 !mulmx1.
- by move=> i Y _; exists (Y 0 0); apply: s1.
- by move=> i j X; rewrite !ord1 eqxx.
- move=> i j _; split=> [c|X]; rewrite /solve1; case E : s => //.
  + rewrite /comb big_ord1 /= => /matrixP/(_ 0 0); rewrite !mxE eqxx mulr1 => h [] //.
  + split=> [/it h|[c ->]]; first by exists (fun=> 0); rewrite comb_nil h.
    by apply/it; rewrite comb_nil.
  split=> [_|_]; last by apply/it; rewrite E.
  by exists (fun=> X 0 0); rewrite /comb big_ord1 /= scalemx1 -s1.
- move=> i j B _ _ u _ /it h; rewrite /evs1; apply/negP => s0; move: u; rewrite h // mul0mx => /matrixP/(_ 0 0)/eqP.
  by rewrite !mxE eq_sym oner_eq0.
move=> r e h; exists r => //; case: r e h => [U|] e h.
  case: h => u hU; split=> //; apply/negP => s0; have /it/(_ s0) U0 : inter (red_L P1 HL1 cg 0) (red_R P1 HR1 0) U.
    by move=> t; rewrite rL rR; apply: hU.
  by move: u; rewrite /unitary U0 mul0mx => /matrixP/(_ 0 0)/eqP; rewrite !mxE eq_sym oner_eq0.
apply: contraT => /negPf s0; case: (h 1%:M (unitmx1 _ _)) => t.
by rewrite mul1mx mulmx1 /HL1 /HR1 /sg s0 expr0 scale1r.
Qed.
End Example.
Print Assumptions C99_decides.
Print Assumptions C99_complete.
