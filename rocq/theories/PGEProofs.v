(* Proofs about PointGroupElement (model in PGE.v). *)
From mathcomp Require Import all_ssreflect all_algebra.
From mathcomp Require Import complex.
From Verif Require Import Prelude PGE.

Set Implicit Arguments.
Unset Strict Implicit.
Unset Printing Implicit Defensive.
Import GRing.Theory Num.Theory.
Local Open Scope ring_scope.

Section Conj.
Variable F : rcfType.
Local Notation C := F[i].

Lemma mxconjK m1 m2 (A : 'M[C]_(m1, m2)) : mxconj (mxconj A) = A.
Proof. by apply/matrixP=> i j; rewrite !mxE conjcK. Qed.
Lemma mxconjM m1 m2 m3 (A : 'M[C]_(m1, m2)) (B : 'M[C]_(m2, m3)) :
  mxconj (A *m B) = mxconj A *m mxconj B.
Proof. exact: (map_mxM (conjc_rmorphism F)). Qed.
Lemma mxconjD m1 m2 (A B : 'M[C]_(m1, m2)) : mxconj (A + B) = mxconj A + mxconj B.
Proof. exact: (map_mxD (conjc_rmorphism F)). Qed.
Lemma mxconjN m1 m2 (A : 'M[C]_(m1, m2)) : mxconj (- A) = - mxconj A.
Proof. exact: (map_mxN (conjc_rmorphism F)). Qed.
Lemma mxconjZ m1 m2 a (A : 'M[C]_(m1, m2)) : mxconj (a *: A) = a^*%C *: mxconj A.
Proof. exact: (map_mxZ (conjc_rmorphism F)). Qed.
Lemma mxconj1 m : mxconj (1%:M : 'M[C]_m) = 1%:M.
Proof. exact: (map_mx1 (conjc_rmorphism F)). Qed.
Lemma mxconj0 m1 m2 : mxconj (0 : 'M[C]_(m1, m2)) = 0.
Proof. exact: (map_mx0 (conjc_rmorphism F)). Qed.
Lemma mxconjT m1 m2 (A : 'M[C]_(m1, m2)) : mxconj A^T = (mxconj A)^T.
Proof. by rewrite /mxconj map_trmx. Qed.
Lemma mxconj_sum m1 m2 I (r : seq I) P (f : I -> 'M[C]_(m1, m2)) :
  mxconj (\sum_(i <- r | P i) f i) = \sum_(i <- r | P i) mxconj (f i).
Proof. by apply: (big_morph _ (@mxconjD m1 m2) (mxconj0 m1 m2)). Qed.

Lemma daggerK m1 m2 (A : 'M[C]_(m1, m2)) : dagger (dagger A) = A.
Proof. by rewrite /dagger -mxconjT trmxK mxconjK. Qed.
Lemma daggerM m1 m2 m3 (A : 'M[C]_(m1, m2)) (B : 'M[C]_(m2, m3)) :
  dagger (A *m B) = dagger B *m dagger A.
Proof. by rewrite /dagger trmx_mul mxconjM. Qed.
Lemma daggerD m1 m2 (A B : 'M[C]_(m1, m2)) : dagger (A + B) = dagger A + dagger B.
Proof. by rewrite /dagger linearD mxconjD. Qed.
Lemma daggerN m1 m2 (A : 'M[C]_(m1, m2)) : dagger (- A) = - dagger A.
Proof. by rewrite /dagger linearN mxconjN. Qed.
Lemma daggerZ m1 m2 a (A : 'M[C]_(m1, m2)) : dagger (a *: A) = a^*%C *: dagger A.
Proof. by rewrite /dagger linearZ /= mxconjZ. Qed.
Lemma dagger1 m : dagger (1%:M : 'M[C]_m) = 1%:M.
Proof. by rewrite /dagger trmx1 mxconj1. Qed.
Lemma dagger0 m1 m2 : dagger (0 : 'M[C]_(m1, m2)) = 0.
Proof. by rewrite /dagger trmx0 mxconj0. Qed.
Lemma mxconj_dagger m1 m2 (A : 'M[C]_(m1, m2)) : mxconj (dagger A) = A^T.
Proof. by rewrite /dagger mxconjK. Qed.
Lemma dagger_mxconj m1 m2 (A : 'M[C]_(m1, m2)) : dagger (mxconj A) = A^T.
Proof. by rewrite /dagger -mxconjT mxconjK. Qed.

Lemma unitary_conj m (U : 'M[C]_m) : unitarymx U -> unitarymx (mxconj U).
Proof.
case=> H1 H2; split; rewrite dagger_mxconj -(mxconjK U^T) -/(dagger U) -mxconjM.
  by rewrite H1 mxconj1.
by rewrite H2 mxconj1.
Qed.
Lemma unitary_dagger m (U : 'M[C]_m) : unitarymx U -> unitarymx (dagger U).
Proof. by case=> H1 H2; split; rewrite daggerK. Qed.
Lemma unitary_tr m (U : 'M[C]_m) : unitarymx U -> unitarymx U^T.
Proof. by move=> /unitary_dagger/unitary_conj; rewrite mxconj_dagger. Qed.
Lemma unitary_mul m (U V : 'M[C]_m) : unitarymx U -> unitarymx V -> unitarymx (U *m V).
Proof.
case=> U1 U2 [V1 V2]; split; rewrite daggerM !mulmxA.
  by rewrite -(mulmxA U) V1 mulmx1.
by rewrite -(mulmxA (dagger V)) U2 mulmx1.
Qed.
Lemma unitary1 m : unitarymx (1%:M : 'M[C]_m).
Proof. by split; rewrite dagger1 mulmx1. Qed.
Lemma unitary_scale m (U : 'M[C]_m) a : `|a| = 1 -> unitarymx U -> unitarymx (a *: U).
Proof.
move=> a1 [U1 U2].
have aa : a * a^*%C = 1 by rewrite -[LHS]/(a * a^*) -normCK a1 expr1n.
split; rewrite daggerZ -scalemxAl -scalemxAr scalerA; last rewrite mulrC.
  by rewrite U1 aa scale1r.
by rewrite aa U2 scale1r.
Qed.
End Conj.

Section Group.
Variables (F : rcfType) (d n : nat).
Local Notation C := F[i].
Local Notation pge := (pge F d n).

Lemma pge_ext (g h : pge) : pge_same g h -> pstrict g = pstrict h -> g = h.
Proof. by case: g h => [????? [????? [/= -> -> -> ->] /= ->]]. Qed.

Lemma pge_same_refl (g : pge) : pge_same g g. Proof. by []. Qed.
Lemma pge_same_sym (g h : pge) : pge_same g h -> pge_same h g.
Proof. by case=> *; split; congruence. Qed.
Lemma pge_same_trans (g h k : pge) : pge_same g h -> pge_same h k -> pge_same g k.
Proof. by case=> ???? [????]; split; congruence. Qed.
Lemma pge_same_mul (g g' h h' : pge) :
  pge_same g g' -> pge_same h h' -> pge_same (pge_mul g h) (pge_mul g' h').
Proof. by rewrite /pge_same /= => -[-> -> -> ->] [-> -> -> ->]. Qed.

Lemma pge_mulA (g h k : pge) : pge_mul g (pge_mul h k) = pge_mul (pge_mul g h) k.
Proof.
apply: pge_ext; last by rewrite /= orbA.
split; rewrite /= ?mulmxA ?addbA //.
case: (pU g) (pU h) (pU k) => [U1|] [U2|] [U3|] //=; congr Some.
by case: (pconj g) (pconj h) => [] []; rewrite /= ?mxconjM ?mxconjK mulmxA.
Qed.

Lemma pge_mul1g (g : pge) : pge_same (pge_mul (pge_identity g) g) g.
Proof.
split; rewrite /= ?mul1mx //.
by case: (pU g) => [U|] //; rewrite mul1mx.
Qed.
Lemma pge_mulg1 (g : pge) : pge_same (pge_mul g (pge_identity g)) g.
Proof.
split; rewrite /= ?mulmx1 ?addbF //.
by case: (pU g) => [U|] //; case: (pconj g); rewrite ?mxconj1 mulmx1.
Qed.
Lemma pge_mulVg (g : pge) : pge_wf g -> pge_same (pge_mul (pge_inv g) g) (pge_identity g).
Proof.
case=> Ru Uu; split; rewrite /= ?mulVmx ?addbb //.
case: (pU g) Uu => [U [U1 U2]|] //; congr Some; case: (pconj g) => //.
by rewrite -(mxconjK U^T) -/(dagger U) -mxconjM U2 mxconj1.
Qed.
Lemma pge_mulgV (g : pge) : pge_wf g -> pge_same (pge_mul g (pge_inv g)) (pge_identity g).
Proof.
case=> Ru Uu; split; rewrite /= ?mulmxV ?addbb //.
by case: (pU g) Uu => [U [U1 U2]|] //; congr Some; case: (pconj g).
Qed.
Lemma pge_wf_mul (g h : pge) : pge_wf g -> pge_wf h -> pge_wf (pge_mul g h).
Proof.
case=> gR gU [hR hU]; split; first by rewrite /= unitmx_mul gR.
rewrite /=; case: (pU g) gU => [U|] // uU; case: (pU h) hU => [V|] // uV.
by case: (pconj g); apply: unitary_mul => //; apply: unitary_conj.
Qed.
Lemma pge_wf_inv (g : pge) : pge_wf g -> pge_wf (pge_inv g).
Proof.
case=> gR gU; split; first by rewrite /= unitmx_inv.
by rewrite /=; case: (pU g) gU => // U /=; case: (pconj g); [apply: unitary_tr|apply: unitary_dagger].
Qed.
Lemma pge_wf_id (g : pge) : pge_wf (pge_identity g).
Proof. by split; rewrite /= ?unitmx1 //; case: (pU g) => // _; apply: unitary1. Qed.

(* ---- integer powers ---- *)
Definition hasU (g : pge) : bool := isSome (pU g).

Lemma identity_hasU (g h : pge) : hasU g = hasU h -> pge_identity g = pge_identity h.
Proof. by rewrite /pge_identity /hasU; case: (pU g) (pU h) => [?|] [?|]. Qed.
Lemma hasU_inv (g : pge) : hasU (pge_inv g) = hasU g.
Proof. by rewrite /hasU /=; case: (pU g). Qed.
Lemma hasU_id (g : pge) : hasU (pge_identity g) = hasU g.
Proof. by rewrite /hasU /=; case: (pU g). Qed.
Lemma hasU_mul (g h : pge) : hasU (pge_mul g h) = hasU g && hasU h.
Proof. by rewrite /hasU /=; case: (pU g) (pU h) => [?|] [?|]. Qed.

Local Notation pow_nat g h m := (iter m (fun result => pge_mul result h) (pge_identity g)).

Lemma pow_hasU (g h : pge) m : hasU h = hasU g -> hasU (pow_nat g h m) = hasU g.
Proof.
move=> gh; elim: m => [|m IH]; first by rewrite /= hasU_id.
by rewrite iterS hasU_mul IH gh andbb.
Qed.

Lemma pow_mulg1 (g h : pge) m : hasU h = hasU g ->
  pge_same (pge_mul (pow_nat g h m) (pge_identity g)) (pow_nat g h m).
Proof.
by move=> gh; have := pge_mulg1 (pow_nat g h m); rewrite (identity_hasU (pow_hasU m gh)).
Qed.
Lemma pow_mul1g (g h : pge) m : hasU h = hasU g ->
  pge_same (pge_mul (pge_identity g) (pow_nat g h m)) (pow_nat g h m).
Proof.
by move=> gh; have := pge_mul1g (pow_nat g h m); rewrite (identity_hasU (pow_hasU m gh)).
Qed.

Lemma pow_add (g h : pge) m k : hasU h = hasU g ->
  pge_same (pge_mul (pow_nat g h m) (pow_nat g h k)) (pow_nat g h (m + k)).
Proof.
move=> gh; elim: k => [|k IH]; first by rewrite addn0; apply: pow_mulg1.
by rewrite addnS !iterS pge_mulA; apply: pge_same_mul.
Qed.

Lemma pow_cancel (g h h' : pge) m : hasU h = hasU g -> hasU h' = hasU g ->
  pge_same (pge_mul h h') (pge_identity g) ->
  pge_same (pge_mul (pow_nat g h m) (pow_nat g h' m)) (pge_identity g).
Proof.
move=> gh gh' H; elim: m => [|m IH]; first exact: (@pow_mul1g g g 0).
have h1 : pge_same (pow_nat g h' 1) h'.
  by rewrite /= -(identity_hasU gh'); apply: pge_mul1g.
have hp : pge_same (pow_nat g h' m.+1) (pge_mul h' (pow_nat g h' m)).
  apply: pge_same_trans (pge_same_mul h1 (pge_same_refl _)).
  by apply: pge_same_sym; rewrite -add1n; apply: pow_add.
apply: pge_same_trans (pge_same_mul (pge_same_refl _) hp) _.
rewrite [iter m.+1 _ _]iterS -pge_mulA (pge_mulA h).
apply: pge_same_trans IH; apply: pge_same_mul => //.
apply: pge_same_trans (pge_same_mul H (pge_same_refl _)) _.
exact: pow_mul1g.
Qed.

Lemma pow_mul_inv (g h h' : pge) m k :
  hasU h = hasU g -> hasU h' = hasU g ->
  pge_same (pge_mul h h') (pge_identity g) -> (k <= m)%N ->
  pge_same (pge_mul (pow_nat g h m) (pow_nat g h' k)) (pow_nat g h (m - k)).
Proof.
move=> gh gh' H le.
rewrite -{1}(subnK le).
apply: pge_same_trans (pge_same_mul (pge_same_sym (pow_add _ _ gh)) (pge_same_refl _)) _.
rewrite -pge_mulA.
apply: pge_same_trans (pge_same_mul (pge_same_refl _) (pow_cancel k gh gh' H)) _.
exact: pow_mulg1.
Qed.

Lemma pow_inv_mul (g h h' : pge) m k :
  hasU h = hasU g -> hasU h' = hasU g ->
  pge_same (pge_mul h h') (pge_identity g) -> (m <= k)%N ->
  pge_same (pge_mul (pow_nat g h m) (pow_nat g h' k)) (pow_nat g h' (k - m)).
Proof.
move=> gh gh' H le.
rewrite -{1}(subnKC le).
apply: pge_same_trans (pge_same_mul (pge_same_refl _) (pge_same_sym (pow_add _ _ gh'))) _.
rewrite pge_mulA.
apply: pge_same_trans (pge_same_mul (pow_cancel m gh gh' H) (pge_same_refl _)) _.
exact: pow_mul1g.
Qed.

Lemma pge_powP (g : pge) m : pge_pow g (Posz m) = pow_nat g g m.
Proof. by []. Qed.
Lemma pge_powN (g : pge) m : pge_pow g (- Posz m) = pow_nat g (pge_inv g) m.
Proof. by case: m => [|m]; rewrite /pge_pow ?abszN // -NegzE. Qed.

Lemma pge_powD (g : pge) (k l : int) : pge_wf g ->
  pge_same (pge_mul (pge_pow g k) (pge_pow g l)) (pge_pow g (k + l)).
Proof.
move=> wf; have Ui := hasU_inv g.
have Vg := pge_mulVg wf; have gV := pge_mulgV wf.
case: k l => [k|k] [l|l]; rewrite ?NegzE.
- by rewrite -PoszD !pge_powP; apply: pow_add.
- rewrite pge_powP pge_powN; case: (leqP l.+1 k) => le.
    by rewrite subzn // pge_powP; apply: pow_mul_inv.
  rewrite -opprB subzn ?(ltnW le) // pge_powN.
  exact: (pow_inv_mul _ _ gV (ltnW le)).
- rewrite pge_powP pge_powN addrC; case: (leqP k.+1 l) => le.
    by rewrite subzn // pge_powP; apply: (pow_inv_mul _ _ Vg le).
  rewrite -opprB subzn ?(ltnW le) // pge_powN.
  exact: (pow_mul_inv _ _ Vg (ltnW le)).
- rewrite -opprD -PoszD !pge_powN; exact: pow_add.
Qed.
End Group.
