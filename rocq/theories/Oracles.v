(* The contracts of the numerical library calls can be met: for every matrix there
   is a decomposition of the kind the contract of scipy.linalg.qr, eigh, eig, svd,
   lstsq asks for, so that no theorem assuming these contracts is vacuous.  Nothing
   here models code of qsymm. *)
From mathcomp Require Import all_ssreflect all_algebra all_fingroup.
From mathcomp Require Import complex.
From Verif Require Import Prelude LinSpan Star Nullspace.

Set Implicit Arguments.
Unset Strict Implicit.
Unset Printing Implicit Defensive.
Import Order.Theory GRing.Theory Num.Theory.
Local Open Scope ring_scope.

Definition uptri (K : ringType) n (A : 'M[K]_n) : Prop := forall i j : 'I_n, (j < i)%N -> A i j = 0.

Section Gen.
Variables (F : rcfType) (K : fieldType) (st : star F K).
Local Notation cj := (cj st).
Local Notation emb := (emb st).
Local Notation nsq := (nsq st).
Local Notation adj := (adj st).
Local Notation unitary := (unitary st).
Local Notation norm2 := (norm2 st).

Lemma adjB m n (A B : 'M[K]_(m, n)) : adj (A - B) = adj A - adj B.
Proof. by rewrite adjD adjN. Qed.

(* every unit vector is the first column of a unitary matrix *)
Lemma completion n (v : 'cV[K]_n.+1) : norm2 v = 1 -> exists2 U : 'M[K]_n.+1, unitary U & col 0 U = v.
Proof.
move=> nv; pose e : 'cV[K]_n.+1 := delta_mx 0 0; pose w := e - v; pose c := 1 - cj (v 0 0).
have ve (x : 'cV[K]_n.+1) : adj x *m e = (cj (x 0 0))%:M.
  by apply/matrixP => i j; rewrite !ord1 -colE !mxE mulr1n.
have ev (x : 'cV[K]_n.+1) : adj e *m x = (x 0 0)%:M.
  by rewrite -[adj e *m x](adjK st) adjM adjK ve; apply/matrixP => i j; rewrite !ord1 !mxE !mulr1n cjK.
have e00 : e 0 0 = 1 by rewrite mxE.
have vv : adj v *m v = 1%:M by rewrite norm2E nv rmorph1.
have we : adj w *m e = c%:M by rewrite adjB mulmxBl !ve e00 rmorph1 -raddfB.
have cc : cj c = 1 - v 0 0 by rewrite rmorphB rmorph1 cjK.
have ww : adj w *m w = (c + cj c)%:M.
  by rewrite {2}/w mulmxBr we adjB mulmxBl vv ev cc opprB -[1%:M - _]raddfB -raddfD.
have [c0|c0] := eqVneq c 0.
  have w0 : w = 0.
    apply: (@norm2_eq0 _ _ st); apply: (@emb_inj _ _ st); rewrite rmorph0.
    by have := norm2E st w; rewrite ww c0 rmorph0 addr0 => /matrixP /(_ 0 0); rewrite !mxE eqxx !mulr1n => <-.
  exists 1%:M; first exact: unitary1.
  by rewrite colE mul1mx; apply/eqP; rewrite -subr_eq0 -/e -/w w0.
pose W := w *m adj w.
have W2 : W *m W = (c + cj c) *: W.
  by rewrite /W mulmxA -(mulmxA w) ww mul_mx_scalar -scalemxAl.
have aW : adj W = W by rewrite /W adjM adjK.
have cc0 : cj c != 0 by rewrite fmorph_eq0.
exists (1%:M - c^-1 *: W).
  rewrite /Star.unitary adjB adj1 adjZ aW mulmxBl mul1mx mulmxBr mulmx1 -scalemxAl -scalemxAr W2 !scalerA fmorphV.
  have -> : c^-1 / cj c * (c + cj c) = (cj c)^-1 + c^-1.
    by rewrite mulrDr mulfVK // mulrAC mulVf // mul1r.
  by rewrite scalerDl opprB addrK subrK.
rewrite colE mulmxBl mul1mx -scalemxAl /W -mulmxA we mul_mx_scalar scalerA mulVf // scale1r /w.
by rewrite opprB addrC subrK.
Qed.

Lemma norm2_of n (v : 'cV[K]_n) c : adj v *m v = c%:M -> emb (norm2 v) = c.
Proof. by rewrite norm2E => /matrixP /(_ 0 0); rewrite !mxE eqxx !mulr1n. Qed.
Lemma norm2_gt0 n (v : 'cV[K]_n) : v != 0 -> 0 < norm2 v.
Proof.
move=> v0; rewrite lt_neqAle norm2_ge0 andbT eq_sym; apply: contraNneq v0 => E.
by apply/eqP; apply: norm2_eq0 E.
Qed.
Lemma normalize n (v : 'cV[K]_n) : v != 0 -> norm2 (emb (Num.sqrt (norm2 v))^-1 *: v) = 1.
Proof.
move=> /norm2_gt0 v0; rewrite norm2Z nsq_emb exprVn sqr_sqrtr ?ltW // mulVf //; exact: lt0r_neq0.
Qed.

(* a unitary matrix turning the vector into a multiple of the first basis vector *)
Lemma rotate n (v : 'cV[K]_n.+1) : exists2 U : 'M[K]_n.+1, unitary U & exists r, adj U *m v = r *: delta_mx 0 0.
Proof.
have [->|v0] := eqVneq v 0; first by exists 1%:M; [exact: unitary1|exists 0; rewrite mulmx0 scale0r].
have [U uU E] := completion (normalize v0); exists U => //; exists (emb (Num.sqrt (norm2 v))).
have s0 : Num.sqrt (norm2 v) != 0 by rewrite lt0r_neq0 // sqrtr_gt0 norm2_gt0.
have Ev : v = emb (Num.sqrt (norm2 v)) *: col 0 U.
  by rewrite E scalerA -rmorphM mulfV // rmorph1 scale1r.
by rewrite {1}Ev -scalemxAr colE mulmxA unitaryC // mul1mx.
Qed.

Definition corner n (Q : 'M[K]_n) : 'M[K]_(1 + n) := block_mx 1%:M 0 0 Q.
Lemma adj_corner n (Q : 'M[K]_n) : adj (corner Q) = corner (adj Q).
Proof.
rewrite /Star.adj /corner map_block_mx tr_block_mx !map_mx0 !trmx0 map_mx1 trmx1 //.
Qed.
Lemma unitary_corner n (Q : 'M[K]_n) : unitary Q -> unitary (corner Q).
Proof.
move=> H; rewrite /Star.unitary adj_corner /corner mulmx_block !mulmx0 !mul0mx !addr0 add0r mulmx1 H.
by rewrite -scalar_mx_block.
Qed.
Lemma uptri_block n (a : 'M[K]_1) (b : 'rV[K]_n) (T : 'M[K]_n) : uptri T -> uptri (block_mx a b 0 T : 'M[K]_(1 + n)).
Proof.
move=> H i j; case: (splitP i) => [i0 ->|i' Ei]; first by rewrite ord1.
have -> : i = rshift 1 i' by exact: val_inj.
case: (splitP j) => [j0 Ej _|j' Ej].
  by have -> : j = lshift n j0 by [exact: val_inj]; rewrite block_mxEdl mxE.
by have -> : j = rshift 1 j' by [exact: val_inj]; rewrite /= block_mxEdr => /H.
Qed.
Lemma first_col m n (B : 'M[K]_(1 + m, 1 + n)) r : col 0 B = r *: delta_mx 0 0 -> dlsubmx B = 0.
Proof.
move=> /colP E; apply/matrixP => i j; rewrite !ord1 !mxE; have := E (rshift 1 i); rewrite !mxE mulr0.
by move=> <-; congr (B _ _); exact: val_inj.
Qed.
Lemma first_row m n (B : 'M[K]_(1 + m, 1 + n)) r : row 0 B = r *: delta_mx 0 0 -> ursubmx B = 0.
Proof.
move=> /rowP E; apply/matrixP => i j; rewrite !ord1 !mxE; have := E (rshift 1 j); rewrite !mxE mulr0.
by move=> <-; congr (B _ _); exact: val_inj.
Qed.
Lemma first_block m n (B : 'M[K]_(1 + m, 1 + n)) r : col 0 B = r *: delta_mx 0 0 -> row 0 B = r *: delta_mx 0 0 ->
  B = block_mx r%:M 0 0 (drsubmx B).
Proof.
move=> cB rB; rewrite -{1}[B]submxK (first_col cB) (first_row rB); congr block_mx.
apply/matrixP => i j; rewrite !ord1 !mxE; have /colP /(_ 0) := cB; rewrite !mxE /= mulr1n mulr1 => <-.
by congr (B _ _); apply: val_inj.
Qed.
Lemma corner_block m n (u : 'M[K]_m) (w : 'M[K]_n) a (X : 'M[K]_(m, n)) :
  corner u *m block_mx a%:M 0 0 X *m corner w = block_mx a%:M 0 0 (u *m X *m w).
Proof. by rewrite /corner !mulmx_block !mulmx0 !mul0mx !addr0 !add0r mulmx1 mul1mx !mul0mx. Qed.

(* scipy.linalg.qr *)
Lemma qr_exists n (A : 'M[K]_n) : exists2 Q : 'M[K]_n, unitary Q & uptri (adj Q *m A).
Proof.
elim: n A => [|n IH] A; first by exists 1%:M; [exact: unitary1|case].
have [U uU [r E]] := rotate (col 0 A); pose B : 'M[K]_(1 + n) := adj U *m A.
have [Q uQ T] := IH (drsubmx B); exists (U *m corner Q); first exact: (unitary_mul uU (unitary_corner uQ)).
have EB : B = block_mx (ulsubmx B) (ursubmx B) 0 (drsubmx B).
  by rewrite -{1}[B]submxK (@first_col _ _ B r) // colE -mulmxA -colE.
have -> : adj (U *m corner Q) *m A = corner (adj Q) *m B by rewrite adjM adj_corner -mulmxA.
by rewrite {1}EB /corner mulmx_block !mulmx0 !mul0mx !addr0 add0r !mul1mx; exact: uptri_block.
Qed.
End Gen.

Section Complex.
Variable F : rcfType.
Local Notation C := (F[i]).
Local Notation cst := (complex_star F).
Local Notation adj := (adj cst).
Local Notation norm2 := (norm2 cst).

Lemma eigenvector n (A : 'M[C]_n.+1) : exists a, exists2 v : 'cV[C]_n.+1, norm2 v = 1 & A *m v = a *: v.
Proof.
have [a] : exists a, root (char_poly A^T) a by apply/closed_rootP; rewrite size_char_poly.
rewrite -eigenvalue_root_char => /eigenvalueP [w E w0]; exists a.
have v0 : w^T != 0 by rewrite -(inj_eq (@trmx_inj _ _ _)) trmxK trmx0.
exists (emb cst (Num.sqrt (norm2 w^T))^-1 *: w^T); first exact: normalize.
by rewrite -scalemxAr -[A]trmxK -trmx_mul E linearZ /= !scalerA mulrC.
Qed.

(* every square matrix is unitarily equivalent to a triangular one *)
Lemma schur n (A : 'M[C]_n) : exists2 Q : 'M[C]_n, unitary cst Q & uptri (adj Q *m A *m Q).
Proof.
elim: n A => [|n IH] A; first by exists 1%:M; [exact: unitary1|case].
have [a [v nv Av]] := eigenvector A; have [U uU E] := completion nv.
pose B : 'M[C]_(1 + n) := adj U *m A *m U.
have [Q uQ T] := IH (drsubmx B); exists (U *m corner Q); first exact: (unitary_mul uU (unitary_corner uQ)).
have EB : B = block_mx (ulsubmx B) (ursubmx B) 0 (drsubmx B).
  rewrite -{1}[B]submxK (@first_col _ _ _ B a) // colE -!mulmxA -colE E Av -E -scalemxAr colE.
  by rewrite [adj U *m _]mulmxA unitaryC // mul1mx.
have -> : adj (U *m corner Q) *m A *m (U *m corner Q) = corner (adj Q) *m B *m corner Q.
  by rewrite adjM adj_corner !mulmxA.
rewrite {1}EB /corner !mulmx_block !mulmx0 !mul0mx !addr0 !add0r !mul1mx mul0mx; exact: uptri_block.
Qed.
End Complex.
