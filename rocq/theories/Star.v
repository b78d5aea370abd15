(* Real and complex matrices at once: a field K over an ordered field F with a
   conjugation, so that statements about real and about complex arrays share one
   proof. *)
From mathcomp Require Import all_ssreflect all_algebra.
From mathcomp Require Import complex.
From Verif Require Import Prelude LinSpan.

Set Implicit Arguments.
Unset Strict Implicit.
Unset Printing Implicit Defensive.
Import Order.Theory GRing.Theory Num.Theory.
Local Open Scope ring_scope.

Record star (F : rcfType) (K : fieldType) := Star {
  cj : {rmorphism K -> K};
  emb : {rmorphism F -> K};
  nsq : K -> F;
  cjK : forall x, cj (cj x) = x;
  cj_emb : forall a, cj (emb a) = emb a;
  nsqE : forall x, x * cj x = emb (nsq x);
  nsq_ge0 : forall x, 0 <= nsq x }.

Section StarTheory.
Variables (F : rcfType) (K : fieldType) (st : star F K).
Local Notation cj := (cj st).
Local Notation emb := (emb st).
Local Notation nsq := (nsq st).

(* conjugate transpose *)
Definition adj m n (A : 'M[K]_(m, n)) : 'M[K]_(n, m) := (map_mx cj A)^T.
Definition unitary n (U : 'M[K]_n) : Prop := U *m adj U = 1%:M.
Definition hermitian n (A : 'M[K]_n) : Prop := adj A = A.
(* squared length of a column and of a row *)
Definition norm2 n (v : 'cV[K]_n) : F := \sum_i nsq (v i 0).
Definition rdot n (v w : 'rV[K]_n) : K := \sum_j v 0 j * cj (w 0 j).
Definition rnorm2 n (v : 'rV[K]_n) : F := \sum_j nsq (v 0 j).

Lemma emb_inj : injective emb. Proof. exact: fmorph_inj. Qed.
Lemma nsq0 : nsq 0 = 0. Proof. by apply: emb_inj; rewrite -nsqE mul0r rmorph0. Qed.
Lemma nsq1 : nsq 1 = 1. Proof. by apply: emb_inj; rewrite -nsqE !rmorph1 mul1r. Qed.
Lemma nsq_eq0 x : (nsq x == 0) = (x == 0).
Proof.
apply/eqP/eqP => [E|->]; last exact: nsq0.
by have /eqP := nsqE st x; rewrite E rmorph0 mulf_eq0 fmorph_eq0 orbb => /eqP.
Qed.
Lemma nsqM x y : nsq (x * y) = nsq x * nsq y.
Proof. by apply: emb_inj; rewrite rmorphM -!nsqE rmorphM mulrACA. Qed.
Lemma nsq_emb a : nsq (emb a) = a ^+ 2.
Proof. by apply: emb_inj; rewrite -nsqE cj_emb rmorphX expr2. Qed.
Lemma nsq_cj x : nsq (cj x) = nsq x.
Proof. by apply: emb_inj; rewrite -!nsqE cjK mulrC. Qed.

Lemma adjE m n (A : 'M[K]_(m, n)) i j : adj A i j = cj (A j i). Proof. by rewrite !mxE. Qed.
Lemma adjK m n (A : 'M[K]_(m, n)) : adj (adj A) = A.
Proof. by apply/matrixP => i j; rewrite !adjE cjK. Qed.
Lemma adjM m n p (A : 'M[K]_(m, n)) (B : 'M[K]_(n, p)) : adj (A *m B) = adj B *m adj A.
Proof. by rewrite /adj map_mxM trmx_mul. Qed.
Lemma adj1 n : adj (1%:M : 'M[K]_n) = 1%:M. Proof. by rewrite /adj map_mx1 trmx1. Qed.
Lemma adj0 m n : adj (0 : 'M[K]_(m, n)) = 0. Proof. by apply/matrixP => i j; rewrite adjE !mxE rmorph0. Qed.
Lemma adjD m n (A B : 'M[K]_(m, n)) : adj (A + B) = adj A + adj B.
Proof. by apply/matrixP => i j; rewrite !mxE rmorphD. Qed.
Lemma adjN m n (A : 'M[K]_(m, n)) : adj (- A) = - adj A.
Proof. by apply/matrixP => i j; rewrite !mxE rmorphN. Qed.
Lemma adjZ m n a (A : 'M[K]_(m, n)) : adj (a *: A) = cj a *: adj A.
Proof. by apply/matrixP => i j; rewrite !mxE rmorphM. Qed.

Lemma unitaryC n (U : 'M[K]_n) : unitary U -> adj U *m U = 1%:M.
Proof. exact: mulmx1C. Qed.
Lemma unitary_adj n (U : 'M[K]_n) : unitary U -> unitary (adj U).
Proof. by move=> H; rewrite /unitary adjK; apply: unitaryC. Qed.
Lemma unitary_map n (U : 'M[K]_n) : unitary U -> unitary (map_mx cj U).
Proof.
move=> H; have := congr1 (map_mx cj) H; rewrite map_mxM map_mx1 => E.
by rewrite /unitary -[RHS]E; congr (_ *m _); apply/matrixP => i j; rewrite !mxE.
Qed.
Lemma unitary_mul n (U W : 'M[K]_n) : unitary U -> unitary W -> unitary (U *m W).
Proof. by rewrite /unitary adjM => HU HW; rewrite mulmxA -(mulmxA U) HW mulmx1 HU. Qed.
Lemma unitary1 n : unitary (1%:M : 'M[K]_n). Proof. by rewrite /unitary adj1 mulmx1. Qed.

Lemma norm2E n (v : 'cV[K]_n) : adj v *m v = (emb (norm2 v))%:M.
Proof.
apply/matrixP => i j; rewrite !ord1 !mxE eqxx mulr1n rmorph_sum.
by apply: eq_bigr => k _; rewrite !mxE mulrC nsqE.
Qed.
Lemma norm2_ge0 n (v : 'cV[K]_n) : 0 <= norm2 v.
Proof. by apply: sumr_ge0 => i _; apply: nsq_ge0. Qed.
Lemma norm2_eq0 n (v : 'cV[K]_n) : norm2 v = 0 -> v = 0.
Proof.
move=> /eqP; rewrite psumr_eq0 => [|i _]; last exact: nsq_ge0.
move=> /allP H; apply/colP => i; rewrite mxE; apply/eqP.
by rewrite -nsq_eq0; apply: H; rewrite mem_index_enum.
Qed.
Lemma norm2_0 n : norm2 (0 : 'cV[K]_n) = 0.
Proof. by apply: big1 => i _; rewrite mxE nsq0. Qed.
Lemma norm2Z n a (v : 'cV[K]_n) : norm2 (a *: v) = nsq a * norm2 v.
Proof. by rewrite /norm2 mulr_sumr; apply: eq_bigr => i _; rewrite mxE nsqM. Qed.
(* isometries keep the length *)
Lemma norm2_unitary m n (U : 'M[K]_(m, n)) v : adj U *m U = 1%:M -> norm2 (U *m v) = norm2 v.
Proof.
move=> H; apply: emb_inj; have := norm2E (U *m v); rewrite adjM mulmxA -(mulmxA (adj v)) H mulmx1 norm2E.
by move=> /matrixP /(_ 0 0); rewrite !mxE eqxx !mulr1n.
Qed.

Lemma rdotE n (v w : 'rV[K]_n) : rdot v w = (v *m adj w) 0 0.
Proof. by rewrite mxE; apply: eq_bigr => j _; rewrite adjE. Qed.
Lemma rnorm2_tr n (v : 'rV[K]_n) : rnorm2 v = norm2 v^T.
Proof. by apply: eq_bigr => j _; rewrite mxE. Qed.
End StarTheory.
Arguments unitary {F K} st {n}.
Arguments hermitian {F K} st {n}.

(* the two instances *)
Section Instances.
Variable F : rcfType.

Lemma real_nsqE (x : F) : x * idfun x = idfun (x ^+ 2). Proof. by rewrite expr2. Qed.
Definition real_star : star F F :=
  @Star F F [rmorphism of idfun] [rmorphism of idfun] (fun x => x ^+ 2)
    (fun x => erefl) (fun a => erefl) real_nsqE (fun x => sqr_ge0 x).

Definition cnsq (x : F[i]) : F := complex.Re x ^+ 2 + complex.Im x ^+ 2.
Lemma cnsqE (x : F[i]) : x * conjc x = (cnsq x)%:C%C.
Proof.
case: x => a b; apply/eqP; rewrite eq_complex /= !mulrN opprK -!expr2 eqxx /= mulrC.
by rewrite addNr.
Qed.
Lemma cnsq_ge0 (x : F[i]) : 0 <= cnsq x. Proof. by rewrite addr_ge0 // sqr_ge0. Qed.
Definition complex_star : star F [fieldType of F[i]] :=
  @Star F [fieldType of F[i]] (conjc_rmorphism F) [rmorphism of real_complex F] cnsq
    (@conjcK F) (@conjc_real F) cnsqE cnsq_ge0.
End Instances.
