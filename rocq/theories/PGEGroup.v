(* PointGroupElements as instances of the abstract group algorithms: equality is a
   congruence on elements compared without U, and on elements all compared with U. *)
From mathcomp Require Import all_ssreflect all_algebra.
From mathcomp Require Import complex.
From Verif Require Import Prelude PySet GroupGen PGE PGEProofs.

Set Implicit Arguments.
Unset Strict Implicit.
Unset Printing Implicit Defensive.
Import GRing.Theory Num.Theory.
Local Open Scope ring_scope.

Section Inst.
Variables (F : rcfType) (d n : nat).
Local Notation C := F[i].
Local Notation pge := (pge F d n).

(* ---- prop_to_id ---- *)
Lemma prop_to_idP (A : 'M[C]_n.+1) :
  reflect (exists2 c, `|c| = 1 & A = c%:M) (let: (p, c) := prop_to_id A in p && (`|c| == 1)).
Proof.
rewrite /prop_to_id; apply: (iffP idP).
- case: eqP => [_|/eqP A0]; first by case: eqP => //= _; rewrite normr0 eq_sym oner_eq0.
  case: eqP => //= E /eqP c1; exists (A 0 0) => //.
  by rewrite -[LHS]scale1r -(divff A0) -scalerA E scalemx1.
- case=> c c1 ->; rewrite mxE /= mulr1n.
  have c0 : c != 0 by rewrite -normr_eq0 c1 oner_eq0.
  rewrite (negPf c0) -scalemx1 scalerA mulVf // scale1r eqxx /=.
  by rewrite c1.
Qed.

Definition basic_eq (g h : pge) :=
  [/\ pR g = pR h, pconj g = pconj h & panti g = panti h].

Lemma basic_eqP (g h : pge) :
  reflect (basic_eq g h) ((pR g == pR h) && ((pconj g, panti g) == (pconj h, panti h))).
Proof.
apply: (iffP andP) => [[/eqP ? /eqP [? ?]] //|[-> -> ->]].
by rewrite !eqxx.
Qed.

(* the non-strict comparison *)
Lemma pge_eq_nonstrict (g h : pge) : ~~ pstrict g -> ~~ pstrict h ->
  reflect (basic_eq g h) (pge_eq g h).
Proof.
move=> /negPf gs /negPf hs; rewrite /pge_eq gs hs andbF andbT.
exact: basic_eqP.
Qed.

(* the strict comparison: U agrees up to a phase *)
Definition phase_eq (U V : 'M[C]_n.+1) := exists2 c, `|c| = 1 & V = c *: U.

Lemma pge_eq_strict (g h : pge) U V :
  pU g = Some U -> pU h = Some V -> unitarymx U -> pstrict g || pstrict h ->
  reflect (basic_eq g h /\ phase_eq U V) (pge_eq g h).
Proof.
move=> gU hV [U1 U2] st; rewrite /pge_eq st andbT.
apply: (iffP andP); last first.
- case=> /basic_eqP b [c c1 E]; rewrite b; split=> //.
  rewrite gU hV /= gU hV /=; apply/prop_to_idP.
  case: (pconj g).
    exists (c^*%C); first by rewrite -c1 -[c^*%C]/(c^*) norm_conjC.
    rewrite E mxconjZ -scalemxAr -(mxconjK U^T) -/(dagger U) -mxconjM U2 mxconj1.
    exact: scalemx1.
  by exists c => //; rewrite E -scalemxAr U2 scalemx1.
- case=> b; rewrite b gU hV /= gU hV => /prop_to_idP [c c1 E].
  split; first exact/basic_eqP.
  move: E; case: (pconj g) => E.
    exists (c^*%C); first by rewrite -c1 -[c^*%C]/(c^*) norm_conjC.
    have : mxconj (U^T *m mxconj V) = mxconj c%:M by rewrite E.
    rewrite mxconjM mxconjK -/(dagger U) => /(congr1 (mulmx U)).
    rewrite mulmxA U1 mul1mx => ->.
    by rewrite /mxconj map_scalar_mx mul_mx_scalar.
  exists c => //; move/(congr1 (mulmx U)): E.
  by rewrite mulmxA U1 mul1mx mul_mx_scalar.
Qed.

Lemma phase_eq_refl U : phase_eq U U.
Proof. by exists 1; rewrite ?normr1 ?scale1r. Qed.
Lemma phase_eq_sym U V : phase_eq U V -> phase_eq V U.
Proof.
case=> c c1 ->; have c0 : c != 0 by rewrite -normr_eq0 c1 oner_eq0.
by exists c^-1; rewrite ?normfV ?c1 ?invr1 // scalerA mulVf // scale1r.
Qed.
Lemma phase_eq_trans U V W : phase_eq U V -> phase_eq V W -> phase_eq U W.
Proof.
by case=> c c1 -> [e e1 ->]; exists (e * c); rewrite ?normrM ?c1 ?e1 ?mulr1 // scalerA.
Qed.
Lemma phase_eq_mul U U' V V' : phase_eq U U' -> phase_eq V V' -> phase_eq (U *m V) (U' *m V').
Proof.
case=> c c1 -> [e e1 ->]; exists (c * e); first by rewrite normrM c1 e1 mulr1.
by rewrite -scalemxAl -scalemxAr scalerA.
Qed.
Lemma phase_eq_conj U U' : phase_eq U U' -> phase_eq (mxconj U) (mxconj U').
Proof.
case=> c c1 ->; exists (c^*%C); last exact: mxconjZ.
by rewrite -c1 -[c^*%C]/(c^*) norm_conjC.
Qed.

(* ---- instance 1: elements compared without U (the default) ---- *)
Definition npge := {g : pge | (pR g \in unitmx) && ~~ pstrict g}.

Lemma npge_mul_subproof (g h : npge) :
  (pR (pge_mul (val g) (val h)) \in unitmx) && ~~ pstrict (pge_mul (val g) (val h)).
Proof.
case: g h => [g /= /andP[gu gs]] [h /= /andP[hu hs]].
by rewrite unitmx_mul gu hu negb_or gs hs.
Qed.
Definition npge_mul (g h : npge) : npge :=
  exist (fun g : pge => (pR g \in unitmx) && ~~ pstrict g)
        (pge_mul (val g) (val h)) (npge_mul_subproof g h).
Lemma npge_inv_subproof (g : npge) :
  (pR (pge_inv (val g)) \in unitmx) && ~~ pstrict (pge_inv (val g)).
Proof. by case: g => [g /= /andP[gu gs]]; rewrite unitmx_inv gu. Qed.
Definition npge_inv (g : npge) : npge :=
  exist (fun g : pge => (pR g \in unitmx) && ~~ pstrict g)
        (pge_inv (val g)) (npge_inv_subproof g).
Lemma npge_id_subproof (g : npge) :
  (pR (pge_identity (val g)) \in unitmx) && ~~ pstrict (pge_identity (val g)).
Proof. by rewrite unitmx1. Qed.
Definition npge_identity (g : npge) : npge :=
  exist (fun g : pge => (pR g \in unitmx) && ~~ pstrict g)
        (pge_identity (val g)) (npge_id_subproof g).
Definition npge_eq (g h : npge) : bool := pge_eq (val g) (val h).

Lemma npge_eqP (g h : npge) : reflect (basic_eq (val g) (val h)) (npge_eq g h).
Proof. by apply: pge_eq_nonstrict; [case/andP: (valP g) | case/andP: (valP h)]. Qed.
Lemma npge_refl : reflexive npge_eq.
Proof. by move=> g; apply/npge_eqP. Qed.
Lemma npge_sym : symmetric npge_eq.
Proof. by move=> g h; apply/npge_eqP/npge_eqP => -[? ? ?]; split. Qed.
Lemma npge_trans : transitive npge_eq.
Proof.
move=> h g k /npge_eqP [? ? ?] /npge_eqP [? ? ?]; apply/npge_eqP; split; congruence.
Qed.
Lemma npge_eq_mul g g' h h' :
  npge_eq g g' -> npge_eq h h' -> npge_eq (npge_mul g h) (npge_mul g' h').
Proof.
move=> /npge_eqP [E1 E2 E3] /npge_eqP [E4 E5 E6]; apply/npge_eqP; split=> /=.
- by rewrite E1 E4.
- by rewrite E2 E5.
- by rewrite E3 E6.
Qed.
Lemma npge_mulA g h k : npge_mul g (npge_mul h k) = npge_mul (npge_mul g h) k.
Proof. by apply: val_inj; apply: pge_mulA. Qed.

Definition pge_one : pge := Pge 1%:M false false None false.
Lemma npge_one_subproof : (pR pge_one \in unitmx) && ~~ pstrict pge_one.
Proof. by rewrite unitmx1. Qed.
Definition npge_one : npge :=
  exist (fun g : pge => (pR g \in unitmx) && ~~ pstrict g) pge_one npge_one_subproof.
Lemma npge_mul1 g : npge_eq (npge_mul npge_one g) g.
Proof. by apply/npge_eqP; split; rewrite /= ?mul1mx. Qed.
Lemma npge_mulV g : npge_eq (npge_mul (npge_inv g) g) npge_one.
Proof.
by case/andP: (valP g) => gu _; apply/npge_eqP; split; rewrite /= ?addbb ?mulVmx.
Qed.
Lemma npge_identity_one g : npge_eq (npge_identity g) npge_one.
Proof. exact/npge_eqP. Qed.

(* ---- instance 2: elements all compared with U, unitary U ---- *)
Definition unitaryb (U : 'M[C]_n.+1) : bool :=
  (U *m dagger U == 1%:M) && (dagger U *m U == 1%:M).
Lemma unitarybP U : reflect (unitarymx U) (unitaryb U).
Proof. by apply: (iffP andP) => -[] => [/eqP ? /eqP ? //|-> ->]; rewrite !eqxx. Qed.

Definition strict_ok (g : pge) : bool :=
  [&& pR g \in unitmx, pstrict g & if pU g is Some U then unitaryb U else false].
Definition spge := {g : pge | strict_ok g}.

Lemma spge_mul_subproof (g h : spge) : strict_ok (pge_mul (val g) (val h)).
Proof.
case: g h => [g /= /and3P[gu gs gU]] [h /= /and3P[hu hs hU]].
rewrite /strict_ok /= unitmx_mul gu hu gs /=.
case: (pU g) gU => // U /unitarybP uU; case: (pU h) hU => // V /unitarybP uV.
by apply/unitarybP; case: (pconj g); apply: unitary_mul => //; apply: unitary_conj.
Qed.
Definition spge_mul (g h : spge) : spge :=
  exist (fun g => strict_ok g) (pge_mul (val g) (val h)) (spge_mul_subproof g h).
Lemma spge_inv_subproof (g : spge) : strict_ok (pge_inv (val g)).
Proof.
case: g => [g /= /and3P[gu gs gU]]; rewrite /strict_ok /= unitmx_inv gu gs /=.
case: (pU g) gU => // U /unitarybP uU; apply/unitarybP.
by case: (pconj g); [apply: unitary_tr | apply: unitary_dagger].
Qed.
Definition spge_inv (g : spge) : spge :=
  exist (fun g => strict_ok g) (pge_inv (val g)) (spge_inv_subproof g).
Definition spge_eq (g h : spge) : bool := pge_eq (val g) (val h).

Definition spge_U (g : spge) : 'M[C]_n.+1 := odflt 0 (pU (val g)).
Lemma spge_UE (g : spge) : pU (val g) = Some (spge_U g).
Proof. by rewrite /spge_U; case/and3P: (valP g) => _ _; case: (pU (val g)). Qed.
Lemma spge_Uu (g : spge) : unitarymx (spge_U g).
Proof. by rewrite /spge_U; case/and3P: (valP g) => _ _; case: (pU (val g)) => // U /unitarybP. Qed.
Lemma spge_st (g : spge) : pstrict (val g).
Proof. by case/and3P: (valP g). Qed.

Lemma spge_eqP (g h : spge) :
  reflect (basic_eq (val g) (val h) /\ phase_eq (spge_U g) (spge_U h)) (spge_eq g h).
Proof. by apply: pge_eq_strict; rewrite ?spge_UE ?spge_st //; apply: spge_Uu. Qed.
Lemma spge_refl : reflexive spge_eq.
Proof. by move=> g; apply/spge_eqP; split=> //; apply: phase_eq_refl. Qed.
Lemma spge_sym : symmetric spge_eq.
Proof.
by move=> g h; apply/spge_eqP/spge_eqP => -[[? ? ?] /phase_eq_sym ?]; do 2 split=> //.
Qed.
Lemma spge_trans : transitive spge_eq.
Proof.
move=> h g k /spge_eqP [[? ? ?] H1] /spge_eqP [[? ? ?] H2]; apply/spge_eqP; split.
  by split; congruence.
exact: phase_eq_trans H1 H2.
Qed.
Lemma spge_U_mul g h :
  spge_U (spge_mul g h) =
  if pconj (val g) then spge_U g *m mxconj (spge_U h) else spge_U g *m spge_U h.
Proof. by rewrite {1}/spge_U /= !spge_UE. Qed.
Lemma spge_eq_mul g g' h h' :
  spge_eq g g' -> spge_eq h h' -> spge_eq (spge_mul g h) (spge_mul g' h').
Proof.
move=> /spge_eqP [[E1 E2 E3] H1] /spge_eqP [[E4 E5 E6] H2]; apply/spge_eqP; split.
  by split=> /=; rewrite ?E1 ?E2 ?E3 ?E4 ?E5 ?E6.
rewrite !spge_U_mul -E2; case: (pconj _); apply: phase_eq_mul => //.
exact: phase_eq_conj.
Qed.
Lemma spge_mulA g h k : spge_mul g (spge_mul h k) = spge_mul (spge_mul g h) k.
Proof. by apply: val_inj; apply: pge_mulA. Qed.

Lemma spge_one_subproof : strict_ok (Pge 1%:M false false (Some 1%:M) true).
Proof. by rewrite /strict_ok /= unitmx1; apply/unitarybP/unitary1. Qed.
Definition spge_one : spge := exist (fun g => strict_ok g) _ spge_one_subproof.
Lemma spge_mul1 g : spge_eq (spge_mul spge_one g) g.
Proof.
apply/spge_eqP; split; first by split; rewrite /= ?mul1mx.
by rewrite spge_U_mul /= {1}/spge_U /= mul1mx; apply: phase_eq_refl.
Qed.
Lemma spge_mulV g : spge_eq (spge_mul (spge_inv g) g) spge_one.
Proof.
have gu : pR (val g) \in unitmx by case/and3P: (valP g).
apply/spge_eqP; split; first by split; rewrite /= ?addbb ?mulVmx.
have [U1 U2] := spge_Uu g; rewrite spge_U_mul /= {1 3 5}/spge_U /= spge_UE /=.
case: (pconj _); last by rewrite U2; apply: phase_eq_refl.
rewrite -(mxconjK (_)^T) -/(dagger _) -mxconjM U2 mxconj1; exact: phase_eq_refl.
Qed.
End Inst.
