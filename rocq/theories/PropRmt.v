(* C51: random Hamiltonians have the symmetries of their class *)
From mathcomp Require Import all_ssreflect all_algebra zify.
From mathcomp Require Import complex.
From Verif Require Import Prelude RingTac Rmt.

Set Implicit Arguments.
Unset Strict Implicit.
Unset Printing Implicit Defensive.
Import Order.TTheory GRing.Theory Num.Theory.
Local Open Scope ring_scope.

(* ---- the index arrays ---- *)
Section Index.
Variable n : nat.
Lemma nth_repeated k (pattern : seq int) i : size pattern = k -> (i < n %/ k * k)%N -> (repeated n k pattern)`_i = pattern`_(i %% k).
Proof.
move=> sk; rewrite /repeated; elim: (n %/ k)%N i => [|q IH] i //= lt.
rewrite nth_cat sk; case: ltnP => [lk|ge]; first by rewrite modn_small.
rewrite IH; last by move: lt; rewrite mulSn -ltn_subLR // .
by rewrite -{2}(subnK ge) modnDr.
Qed.
Definition sgn (b : bool) : int := if b then -1 else 1.
Lemma tau_zE i : ~~ odd n -> (i < n)%N -> (repeated n 2 [:: 1; -1])`_i = sgn (odd i).
Proof.
move=> en lt; rewrite nth_repeated //; last by rewrite divnK // dvdn2.
by rewrite modn2; case: (odd i).
Qed.
Lemma sigma_zE i : (n %% 4 == 0)%N -> (i < n)%N -> (repeated n 4 [:: 1; 1; -1; -1])`_i = sgn (odd (i %/ 2)).
Proof.
move=> en lt; rewrite nth_repeated //; last by rewrite divnK.
have : (i %% 4 < 4)%N by rewrite ltn_pmod.
have -> : odd (i %/ 2) = (2 <= i %% 4)%N by lia.
by case: (i %% 4)%N => [|[|[|[|]]]].
Qed.
(* exchange of neighbours *)
Definition flip (i : nat) : nat := if odd i then i.-1 else i.+1.
Definition flip2 (i : nat) : nat := if odd (i %/ 2) then i.-2 else i.+2.
Lemma flip_lt i : ~~ odd n -> (i < n)%N -> (flip i < n)%N.
Proof. rewrite /flip; case: ifP; lia. Qed.
Lemma flip2_lt i : (n %% 4 == 0)%N -> (i < n)%N -> (flip2 i < n)%N.
Proof. rewrite /flip2; case: ifP; lia. Qed.
Lemma shifted_tau i : ~~ odd n -> (i < n)%N -> shifted (repeated n 2 [:: 1; -1]) i = flip i.
Proof. move=> en lt; rewrite /shifted tau_zE // /flip /sgn; case: ifP; lia. Qed.
Lemma shifted_sigma i : (n %% 4 == 0)%N -> (i < n)%N -> shifted [seq 2 * s | s <- repeated n 4 [:: 1; 1; -1; -1]] i = flip2 i.
Proof.
move=> en lt; rewrite /shifted (nth_map 0) ?sigma_zE //; last first.
  rewrite /repeated size_flatten /shape map_nseq sumn_nseq /=; lia.
rewrite /flip2 /sgn; case: ifP; lia.
Qed.
Lemma flipK i : flip (flip i) = i. Proof. by rewrite /flip; case: ifP; case: ifP; lia. Qed.
Lemma flip2K i : flip2 (flip2 i) = i. Proof. by rewrite /flip2; case: ifP; case: ifP; lia. Qed.
Lemma odd_flip i : odd (flip i) = ~~ odd i. Proof. by rewrite /flip; case: ifP; lia. Qed.
Lemma odd_flip2 i : odd (flip2 i) = odd i. Proof. by rewrite /flip2; case: ifP; lia. Qed.
Lemma half_flip2 i : odd (flip2 i %/ 2) = ~~ odd (i %/ 2). Proof. by rewrite /flip2; case: ifP; lia. Qed.
End Index.

Section Gaussian.
Variables (F : rcfType) (n : nat).
Local Notation C := F[i].
Let K := [fieldType of C].
Add Field Kf : (F_field K).
Implicit Types (H G : 'M[C]_n).

(* ---- specification ---- *)
Definition adj H : 'M[C]_n := conjm H^T.
(* a matrix that acts in the same way on every group of k = size u consecutive indices *)
Definition site_op (u : seq (seq C)) : 'M[C]_n :=
  \matrix_(i, j) if (i %/ size u == j %/ size u)%N then (nth [::] u (i %% size u))`_(j %% size u) else 0.
Definition is_unitary H := H *m adj H = 1%:M.
(* U K, with K complex conjugation, commutes or anticommutes with H *)
Definition antiunitary_sym (U H : 'M[C]_n) (s : C) := U *m conjm H *m adj U = s *: H.
Definition tau_z_op : 'M[C]_n := site_op [:: [:: 1; 0]; [:: 0; -1]].

(* ---- monomial matrices ---- *)
Definition mono (f : 'I_n -> 'I_n) (a : 'I_n -> C) : 'M[C]_n := \matrix_(i, j) if j == f i then a i else 0.
Lemma mono_mull f a H i j : (mono f a *m H) i j = a i * H (f i) j.
Proof.
rewrite mxE (bigD1 (f i)) //= mxE eqxx big1 ?addr0 // => k /negPf nk; by rewrite mxE nk mul0r.
Qed.
Lemma mono_mulr f a H i j : (H *m adj (mono f a)) i j = H i (f j) * conjc (a j).
Proof.
rewrite mxE (bigD1 (f j)) //= !mxE eqxx big1 ?addr0 // => k /negPf nk; by rewrite !mxE nk conjc0 mulr0.
Qed.
Lemma mono_sym f a H i j : (mono f a *m conjm H *m adj (mono f a)) i j = a i * conjc (H (f i) (f j)) * conjc (a j).
Proof. by rewrite mono_mulr mono_mull mxE. Qed.
Lemma mono_unitary f a : injective f -> (forall i, a i * conjc (a i) = 1) -> is_unitary (mono f a).
Proof.
move=> fi ha; apply/matrixP => i j; rewrite mono_mulr !mxE (inj_eq fi) eq_sym.
by case: eqP => [->|_]; rewrite ?ha ?mul0r.
Qed.
Lemma mono_square f a (s : C) : involutive f -> (forall i, a i * conjc (a (f i)) = s) -> mono f a *m conjm (mono f a) = s%:M.
Proof.
move=> fK ha; apply/matrixP => i j; rewrite mono_mull !mxE fK eq_sym.
by case: eqP => [_|_]; rewrite ?ha ?conjc0 ?mulr0.
Qed.

Definition z_ (i : 'I_n) : C := (sgn (odd i))%:~R.
Definition s_ (i : 'I_n) : C := (sgn (odd (i %/ 2)))%:~R.
Definition X_ (i : 'I_n) : 'I_n := insubd i (flip i).
Definition S_ (i : 'I_n) : 'I_n := insubd i (flip2 i).
Lemma z_P i : z_ i = 1 \/ z_ i = -1. Proof. by rewrite /z_ /sgn; case: ifP; [right|left]. Qed.
Lemma s_P i : s_ i = 1 \/ s_ i = -1. Proof. by rewrite /s_ /sgn; case: ifP; [right|left]. Qed.

Section Even.
Hypothesis en : ~~ odd n.
Lemma val_X i : X_ i = flip i :> nat. Proof. by rewrite /X_ insubdK // unfold_in flip_lt. Qed.
Lemma X_K : involutive X_. Proof. by move=> i; apply: val_inj; rewrite /= !val_X flipK. Qed.
Lemma z_X i : z_ (X_ i) = - z_ i.
Proof. by rewrite /z_ val_X odd_flip /sgn; case: (odd i); rewrite //= ?opprK ?rmorphN //= ?rmorphN ?opprK. Qed.
Lemma signsE H i j : signs (repeated n 2 [:: 1; -1]) H i j = z_ i * H i j * z_ j.
Proof. by rewrite mxE !tau_zE. Qed.
Lemma twistE H i j : twist (repeated n 2 [:: 1; -1]) (shifted (repeated n 2 [:: 1; -1])) H i j = z_ i * conjc (H (X_ i) (X_ j)) * z_ j.
Proof. by rewrite signsE !mxE !shifted_tau. Qed.
Lemma eq_X i (j : 'I_n) : (j == X_ i) = (j == flip i :> nat). Proof. by rewrite -val_X. Qed.

Lemma site_tau_x : site_op [:: [:: 0; 1]; [:: 1; 0]] = mono X_ (fun => 1).
Proof.
apply/matrixP => i j; rewrite !mxE eq_X /= !modn2.
have -> : (j == flip i :> nat) = ((i %/ 2 == j %/ 2)%N && (odd i != odd j)) by rewrite /flip; case: ifP; lia.
by case: eqP => //=; case: (odd i); case: (odd j).
Qed.
Lemma site_tau_y : site_op [:: [:: 0; 'i]; [:: - 'i; 0]] = mono X_ (fun i => z_ i * 'i).
Proof.
apply/matrixP => i j; rewrite !mxE eq_X /= !modn2.
have -> : (j == flip i :> nat) = ((i %/ 2 == j %/ 2)%N && (odd i != odd j)) by rewrite /flip; case: ifP; lia.
by rewrite /z_; case: eqP => //=; case: (odd i); case: (odd j); rewrite /= ?mul1r ?mulN1r.
Qed.
End Even.
Lemma site_tau_z : tau_z_op = mono id z_.
Proof.
apply/matrixP => i j; rewrite !mxE /= !modn2.
have -> : (j == i) = ((i %/ 2 == j %/ 2)%N && (odd i == odd j)) by rewrite -(inj_eq val_inj) /=; lia.
by rewrite /z_; case: eqP => //=; case: (odd i); case: (odd j).
Qed.
Lemma site_one : site_op [:: [:: 1]] = mono id (fun => 1).
Proof. by apply/matrixP => i j; rewrite !mxE /= !divn1 !modn1 -(inj_eq val_inj) eq_sym. Qed.

Section Four.
Hypothesis fn : (n %% 4 == 0)%N.
Lemma val_S i : S_ i = flip2 i :> nat. Proof. by rewrite /S_ insubdK // unfold_in flip2_lt. Qed.
Lemma S_K : involutive S_. Proof. by move=> i; apply: val_inj; rewrite /= !val_S flip2K. Qed.
Lemma z_S i : z_ (S_ i) = z_ i. Proof. by rewrite /z_ val_S odd_flip2. Qed.
Lemma s_S i : s_ (S_ i) = - s_ i.
Proof. by rewrite /s_ val_S half_flip2 /sgn; case: (odd _); rewrite //= ?opprK ?rmorphN //= ?rmorphN ?opprK. Qed.
Lemma twist4E H i j : twist (repeated n 4 [:: 1; 1; -1; -1]) (shifted [seq 2 * s | s <- repeated n 4 [:: 1; 1; -1; -1]]) H i j
  = s_ i * conjc (H (S_ i) (S_ j)) * s_ j.
Proof. by rewrite !mxE !shifted_sigma // !sigma_zE. Qed.
Lemma eq_S i (j : 'I_n) : (j == S_ i) = (j == flip2 i :> nat). Proof. by rewrite -val_S. Qed.
Lemma site_sigma_y : site_op [:: [:: 0; 0; 'i; 0]; [:: 0; 0; 0; 'i]; [:: - 'i; 0; 0; 0]; [:: 0; - 'i; 0; 0]] = mono S_ (fun i => s_ i * 'i).
Proof.
apply/matrixP => i j; rewrite !mxE eq_S /=.
have -> : (j == flip2 i :> nat) = ((i %/ 4 == j %/ 4)%N && ((i %% 4 + 2) %% 4 == j %% 4)%N) by rewrite /flip2; case: ifP; lia.
have -> : s_ i = (sgn (2 <= i %% 4)%N)%:~R by rewrite /s_; congr (sgn _)%:~R; lia.
have : (i %% 4 < 4)%N by rewrite ltn_pmod. have : (j %% 4 < 4)%N by rewrite ltn_pmod.
case: eqP => //= _; case: (j %% 4)%N => [|[|[|[|]]]] //; case: (i %% 4)%N => [|[|[|[|]]]] //=; by rewrite ?mul1r ?mulN1r.
Qed.
Lemma site_sigma_y_tau_z : site_op [:: [:: 0; 0; 'i; 0]; [:: 0; 0; 0; - 'i]; [:: - 'i; 0; 0; 0]; [:: 0; 'i; 0; 0]]
  = mono S_ (fun i => s_ i * z_ i * 'i).
Proof.
apply/matrixP => i j; rewrite !mxE eq_S /=.
have -> : (j == flip2 i :> nat) = ((i %/ 4 == j %/ 4)%N && ((i %% 4 + 2) %% 4 == j %% 4)%N) by rewrite /flip2; case: ifP; lia.
have -> : s_ i = (sgn (2 <= i %% 4)%N)%:~R by rewrite /s_; congr (sgn _)%:~R; lia.
have -> : z_ i = (sgn (odd (i %% 4)))%:~R by rewrite /z_; congr (sgn _)%:~R; lia.
have : (i %% 4 < 4)%N by rewrite ltn_pmod. have : (j %% 4 < 4)%N by rewrite ltn_pmod.
case: eqP => //= _; case: (j %% 4)%N => [|[|[|[|]]]] //; case: (i %% 4)%N => [|[|[|[|]]]] //=; by rewrite ?mul1r ?mulN1r ?opprK ?mul1r.
Qed.
End Four.

(* ---- conjugation ---- *)
Lemma conjM (x y : C) : conjc (x * y) = conjc x * conjc y. Proof. exact: (rmorphM (conjc_rmorphism F)). Qed.
Lemma conjD (x y : C) : conjc (x + y) = conjc x + conjc y. Proof. exact: (rmorphD (conjc_rmorphism F)). Qed.
Lemma conjN (x : C) : conjc (- x) = - conjc x. Proof. exact: (rmorphN (conjc_rmorphism F)). Qed.
Lemma conj_i : conjc ('i : C) = - 'i. Proof. by simpc. Qed.
Lemma ii : 'i * 'i = -1 :> C. Proof. by simpc. Qed.
Lemma conj_r (x : F) : conjc (real_complex F x) = real_complex F x. Proof. by simpc. Qed.
Lemma conj_1 : conjc (1 : C) = 1. Proof. exact: (rmorph1 (conjc_rmorphism F)). Qed.
Lemma z_c i : conjc (z_ i) = z_ i. Proof. by case: (z_P i) => ->; rewrite ?conjN conj_1. Qed.
Lemma s_c i : conjc (s_ i) = s_ i. Proof. by case: (s_P i) => ->; rewrite ?conjN conj_1. Qed.
Lemma z_z i : z_ i * z_ i = 1. Proof. by case: (z_P i) => ->; rewrite ?mulrNN mulr1. Qed.
Lemma s_s i : s_ i * s_ i = 1. Proof. by case: (s_P i) => ->; rewrite ?mulrNN mulr1. Qed.
Lemma addE G H i j : (G + H) i j = G i j + H i j. Proof. by rewrite mxE. Qed.
Lemma oppE G i j : (- G) i j = - G i j. Proof. by rewrite mxE. Qed.
Lemma scaleE c G i j : (c *: G) i j = c * G i j. Proof. by rewrite mxE. Qed.
Lemma i_sandwich (x y z : C) : x * 'i * y * conjc (z * 'i) = x * y * conjc z.
Proof.
rewrite conjM conj_i; have -> : x * 'i * y * (conjc z * - 'i) = x * y * conjc z * - ('i * 'i) by move: 'i (conjc z) => a b; fringm K.
by rewrite ii opprK mulr1.
Qed.

(* the Hermitian matrix before the symmetries are imposed *)
Definition base (sym : sym_class) (A B : 'M[F]_n) : 'M[C]_n :=
  let h := match sym with cAI => toC A | cD | cBDI => 'i *: toC A | _ => toC A + 'i *: toC B end in h + conjm h^T.
Lemma base_herm sym A B i j : conjc (base sym A B j i) = base sym A B i j.
Proof.
rewrite /base; move: (match sym with cAI => _ | _ => _ end) => h; rewrite !mxE conjD conjcK addrC.
by [].
Qed.
Lemma base_AI A B i j : conjc (base cAI A B i j) = base cAI A B i j.
Proof. by rewrite !mxE conjD !conj_r. Qed.
Lemma base_im sym A B i j : sym = cD \/ sym = cBDI -> conjc (base sym A B i j) = - base sym A B i j.
Proof.
by case=> ->; rewrite !mxE !conjD !conjM ?conjcK ?conj_i ?conj_r !mulNr opprD opprK.
Qed.

Variables (sym : sym_class) (v : F) (draw1 draw2 : 'M[F]_n) (H : 'M[C]_n).
Hypothesis ret : gaussian (Some sym) v draw1 draw2 = Ok H.
Let G := base sym draw1 draw2.

Lemma sizes : ((chiral_class sym || (t_sq sym == -1) || (p_sq sym == -1)) ==> ~~ odd n) && ((if sym is cCII then true else false) ==> (n %% 4 == 0)%N).
Proof.
move: ret; rewrite /gaussian; case: ifP => // e1; case: ifP => // e2 _.
apply/andP; split; apply/implyP => h; first by move: e1; rewrite h /= => ->.
by move: e2; rewrite h /= => /negbFE.
Qed.
(* the entries *)
Lemma entries : exists2 c : C, conjc c = c & forall i j, H i j = c *
  match sym with
  | cA | cAI | cD => G i j
  | cAIII | cBDI => G i j - z_ i * G i j * z_ j
  | cAII => G i j + z_ i * conjc (G (X_ i) (X_ j)) * z_ j
  | cC => G i j - z_ i * conjc (G (X_ i) (X_ j)) * z_ j
  | cDIII => G i j - z_ i * G i j * z_ j + (z_ i * conjc (G (X_ i) (X_ j)) * z_ j - conjc (G (X_ i) (X_ j)))
  | cCI => G i j - z_ i * G i j * z_ j - (z_ i * conjc (G (X_ i) (X_ j)) * z_ j - conjc (G (X_ i) (X_ j)))
  | cCII => G i j - z_ i * G i j * z_ j + s_ i * (conjc (G (S_ i) (S_ j)) - z_ i * conjc (G (S_ i) (S_ j)) * z_ j) * s_ j
  end.
Proof.
move: ret sizes; rewrite /gaussian; do 2![case: ifP => // _] => -[<-] /andP[/implyP en /implyP fn].
exists (real_complex F (match sym with
              | cAII | cDIII | cC | cCI | cCII => (if chiral_class sym then v / Num.sqrt 2%:R / 2%:R else v / Num.sqrt 2%:R) / Num.sqrt 2%:R
              | _ => (if chiral_class sym then v / Num.sqrt 2%:R / 2%:R else v / Num.sqrt 2%:R) end)); first exact: conj_r.
rewrite /G /base; clear G ret; case: sym en fn => en fn i j; rewrite scaleE; congr (_ * _);
  rewrite [chiral_class _]/= ?[(_, _).1]/=;
  move: (_ + conjm _^T) => G;
  try (have {}en := en isT); try (have {}fn := fn isT);
  rewrite ?(addE, oppE, twistE, twist4E) //;
  rewrite ?(addE, oppE, signsE, conjD, conjN, conjM, z_c, z_X, z_S) //.
all: case: (z_P i) => ->; case: (z_P j) => ->; move: (G i j) (conjc _) => x y; fringm K.
Qed.

Let en : chiral_class sym || (t_sq sym == -1) || (p_sq sym == -1) -> ~~ odd n.
Proof. by case/andP: sizes => /implyP. Qed.
Let fn : sym = cCII -> (n %% 4 == 0)%N.
Proof. by move=> e; case/andP: sizes => _; rewrite e. Qed.
Let GH i j : conjc (G j i) = G i j. Proof. exact: base_herm. Qed.

(* the result is Hermitian *)
Theorem C51_hermitian : adj H = H.
Proof.
have [c cc hE] := entries; apply/matrixP => i j; rewrite [LHS]mxE [H^T _ _]mxE !hE conjM cc; congr (_ * _).
case: sym; rewrite ?(conjD, conjN, conjM, z_c, s_c, conjcK) !GH -?(GH (X_ j)) -?(GH (S_ j)) //;
  rewrite ?(conjD, conjN, conjM, z_c, s_c, conjcK).
all: move: (G i j) (conjc (G (X_ i) (X_ j))) (conjc (G (S_ i) (S_ j))) (z_ i) (z_ j) (s_ i) (s_ j) => *; fringm K.
Qed.
(* the chiral symmetry *)
Theorem C51_chiral : chiral_class sym -> tau_z_op *m H *m tau_z_op = - H.
Proof.
have [c cc hE] := entries => ch; apply/matrixP => i j.
have zA : adj (mono id z_) = mono id z_.
  by apply/matrixP => a b; rewrite !mxE eq_sym; case: eqP => [->|]; rewrite ?z_c ?conjc0.
rewrite site_tau_z -{2}zA mono_mulr mono_mull z_c [in RHS]mxE !hE; move: en; case: sym ch => // _ /(_ isT) e.
all: move: (conjc (G (X_ i) (X_ j))) (conjc (G (S_ i) (S_ j))) (G i j) => x x' y; case: (z_P i) => ->; case: (z_P j) => ->; fringm K.
Qed.

(* time reversal *)
Theorem C51_time_reversal u : h_t_matrix F sym = Some u -> antiunitary_sym (site_op u) H 1.
Proof.
have [c cc hE] := entries; have GI i j : sym = cAI -> conjc (G i j) = G i j by move=> e; rewrite /G e base_AI.
have GD i j : sym = cBDI -> conjc (G i j) = - G i j by move=> e; apply: base_im; right.
move: en fn hE GI GD; rewrite /antiunitary_sym scale1r; case: sym => // e e4 hE GI GD [<-]; apply/matrixP => i j.
- by rewrite site_one mono_sym !hE conjM cc conj_1 mul1r mulr1 GI.
- rewrite site_tau_y ?e // mono_sym i_sandwich !hE ?(conjM, conjD, conjN, z_c, cc, conjcK, X_K (e isT), z_X (e isT)).
  move: (G i j) (conjc _) => x y; case: (z_P i) => ->; case: (z_P j) => ->; fringm K.
- rewrite -/tau_z_op site_tau_z mono_sym !hE ?(conjM, conjD, conjN, z_c, cc, GD _ _ erefl).
  move: (G i j) => x; case: (z_P i) => ->; case: (z_P j) => ->; fringm K.
- rewrite site_sigma_y ?e4 // mono_sym i_sandwich !hE ?(conjM, conjD, conjN, z_c, s_c, cc, conjcK, S_K (e4 erefl), z_S (e4 erefl), s_S (e4 erefl)).
  move: (G i j) (conjc _) => x y; case: (z_P i) => ->; case: (z_P j) => ->; case: (s_P i) => ->; case: (s_P j) => ->; fringm K.
- rewrite site_tau_y ?e // mono_sym i_sandwich !hE ?(conjM, conjD, conjN, z_c, cc, conjcK, X_K (e isT), z_X (e isT)).
  move: (G i j) (conjc _) => x y; case: (z_P i) => ->; case: (z_P j) => ->; fringm K.
- rewrite site_tau_x ?e // mono_sym conj_1 mul1r mulr1 !hE ?(conjM, conjD, conjN, z_c, cc, conjcK, X_K (e isT), z_X (e isT)).
  move: (G i j) (conjc _) => x y; case: (z_P i) => ->; case: (z_P j) => ->; fringm K.
Qed.
(* particle-hole symmetry *)
Theorem C51_particle_hole u : h_p_matrix F sym = Some u -> antiunitary_sym (site_op u) H (-1).
Proof.
have [c cc hE] := entries.
have GD i j : sym = cD \/ sym = cBDI -> conjc (G i j) = - G i j by move=> e; apply: base_im.
move: en fn hE GD; rewrite /antiunitary_sym scaleN1r; case: sym => // e e4 hE GD [<-]; apply/matrixP => i j; rewrite [in RHS]mxE.
- rewrite site_one mono_sym !hE ?(conjM, conjD, conjN, z_c, cc, conj_1) ?GD; try by right.
  move: (G i j) (z_ i) (z_ j) => x y z; fringm K.
- rewrite site_sigma_y_tau_z ?e4 // mono_sym i_sandwich !hE ?(conjM, conjD, conjN, z_c, s_c, cc, conjcK, S_K (e4 erefl), z_S (e4 erefl), s_S (e4 erefl)).
  move: (G i j) (conjc _) => x y; case: (z_P i) => ->; case: (z_P j) => ->; case: (s_P i) => ->; case: (s_P j) => ->; fringm K.
- rewrite site_one mono_sym !hE ?(conjM, conjD, conjN, z_c, cc, conj_1) ?GD; try by left.
  move: (G i j) => x; fringm K.
- rewrite site_tau_x ?e // mono_sym conj_1 mul1r mulr1 !hE ?(conjM, conjD, conjN, z_c, cc, conjcK, X_K (e isT), z_X (e isT)).
  move: (G i j) (conjc _) => x y; case: (z_P i) => ->; case: (z_P j) => ->; fringm K.
- rewrite site_tau_y ?e // mono_sym i_sandwich !hE ?(conjM, conjD, conjN, z_c, cc, conjcK, X_K (e isT), z_X (e isT)).
  move: (G i j) (conjc _) => x y; case: (z_P i) => ->; case: (z_P j) => ->; fringm K.
- rewrite site_tau_y ?e // mono_sym i_sandwich !hE ?(conjM, conjD, conjN, z_c, cc, conjcK, X_K (e isT), z_X (e isT)).
  move: (G i j) (conjc _) => x y; case: (z_P i) => ->; case: (z_P j) => ->; fringm K.
Qed.
(* the tables contain unitary matrices, whose product with the conjugate is the value of t or p *)
Theorem C51_t_table u : h_t_matrix F sym = Some u -> is_unitary (site_op u) /\ site_op u *m conjm (site_op u) = ((t_sq sym)%:~R)%:M.
Proof.
have ic (x y : C) : x * 'i * conjc (y * 'i) = x * conjc y by have := i_sandwich x 1 y; rewrite !mulr1.
have id_ : involutive (@id 'I_n) by [].
move: en fn; case: sym => // e e4 [<-].
- rewrite site_one; split; [apply: mono_unitary | apply: mono_square] => // i; by rewrite conj_1 mulr1.
- rewrite site_tau_y ?e //; split; [apply: mono_unitary | apply: mono_square] => [|i||i].
  + exact: inv_inj (X_K (e isT)).
  + by rewrite ic z_c z_z.
  + exact: X_K (e isT).
  + by rewrite ic z_X ?e // conjN z_c mulrN z_z.
- rewrite -/tau_z_op site_tau_z; split; [apply: mono_unitary | apply: mono_square] => // i; by rewrite z_c z_z.
- rewrite site_sigma_y ?e4 //; split; [apply: mono_unitary | apply: mono_square] => [|i||i].
  + exact: inv_inj (S_K (e4 erefl)).
  + by rewrite ic s_c s_s.
  + exact: S_K (e4 erefl).
  + by rewrite ic s_S ?e4 // conjN s_c mulrN s_s.
- rewrite site_tau_y ?e //; split; [apply: mono_unitary | apply: mono_square] => [|i||i].
  + exact: inv_inj (X_K (e isT)).
  + by rewrite ic z_c z_z.
  + exact: X_K (e isT).
  + by rewrite ic z_X ?e // conjN z_c mulrN z_z.
- rewrite site_tau_x ?e //; split; [apply: mono_unitary | apply: mono_square] => [|i||i].
  + exact: inv_inj (X_K (e isT)).
  + by rewrite conj_1 mulr1.
  + exact: X_K (e isT).
  + by rewrite conj_1 mulr1.
Qed.
Theorem C51_p_table u : h_p_matrix F sym = Some u -> is_unitary (site_op u) /\ site_op u *m conjm (site_op u) = ((p_sq sym)%:~R)%:M.
Proof.
have ic (x y : C) : x * 'i * conjc (y * 'i) = x * conjc y by have := i_sandwich x 1 y; rewrite !mulr1.
have id_ : involutive (@id 'I_n) by [].
move: en fn; case: sym => // e e4 [<-].
- rewrite site_one; split; [apply: mono_unitary | apply: mono_square] => // i; by rewrite conj_1 mulr1.
- have sz i : s_ i * z_ i * (s_ i * z_ i) = 1 by rewrite mulrACA s_s z_z mulr1.
  rewrite site_sigma_y_tau_z ?e4 //; split; [apply: mono_unitary | apply: mono_square] => [|i||i].
  + exact: inv_inj (S_K (e4 erefl)).
  + by rewrite ic conjM s_c z_c sz.
  + exact: S_K (e4 erefl).
  + by rewrite ic s_S ?e4 // z_S ?e4 // conjM conjN s_c z_c mulNr mulrN sz.
- rewrite site_one; split; [apply: mono_unitary | apply: mono_square] => // i; by rewrite conj_1 mulr1.
- rewrite site_tau_x ?e //; split; [apply: mono_unitary | apply: mono_square] => [|i||i].
  + exact: inv_inj (X_K (e isT)).
  + by rewrite conj_1 mulr1.
  + exact: X_K (e isT).
  + by rewrite conj_1 mulr1.
- rewrite site_tau_y ?e //; split; [apply: mono_unitary | apply: mono_square] => [|i||i].
  + exact: inv_inj (X_K (e isT)).
  + by rewrite ic z_c z_z.
  + exact: X_K (e isT).
  + by rewrite ic z_X ?e // conjN z_c mulrN z_z.
- rewrite site_tau_y ?e //; split; [apply: mono_unitary | apply: mono_square] => [|i||i].
  + exact: inv_inj (X_K (e isT)).
  + by rewrite ic z_c z_z.
  + exact: X_K (e isT).
  + by rewrite ic z_X ?e // conjN z_c mulrN z_z.
Qed.
End Gaussian.

Section Sizes.
Variables (F : rcfType) (n : nat).
(* the sizes that are accepted *)
Definition size_ok (sym : sym_class) : bool :=
  match sym with cA | cAI | cD => true | cCII => (4 %| n)%N | _ => (2 %| n)%N end.
Theorem C51_sizes sym v (A B : 'M[F]_n) : (exists H, gaussian sym v A B = Ok H) <-> exists2 s, sym = Some s & size_ok s.
Proof.
case: sym => [sym|]; last by split=> [[H]|[s]].
rewrite /gaussian; split=> [[H h]|[s [<-]] h].
  exists sym => //; move: h; case: sym => //=; rewrite ?dvdn2 //; case: (boolP (odd n)) => //= _.
  by rewrite /dvdn; case: ifP => // /negbFE.
case: sym h => //= h; try by eexists.
all: have e : odd n = false by apply/negbTE; move: h; rewrite -dvdn2 //; apply: dvdn_trans.
all: rewrite e /=; try (by eexists).
by move: h; rewrite /dvdn => ->; eexists.
Qed.
(* the tables have an entry exactly if the symmetry is present *)
Theorem C51_keys sym : (isSome (h_t_matrix F sym) = (t_sq sym != 0)) * (isSome (h_p_matrix F sym) = (p_sq sym != 0)).
Proof. by case: sym. Qed.
End Sizes.

(* concrete case: class BDI with one pair of sites *)
Section Example.
Variable F : rcfType.
Example C51_example : exists H : 'M[F[i]]_2, gaussian (Some cBDI) (Num.sqrt 2%:R) (\matrix_(i, j) if (i < j)%N then 1 else 0 : F) 0 = Ok H /\
  (H 0 1 = 'i) /\ (H 1 0 = - 'i).
Proof.
have s2 : Num.sqrt 2%:R != 0 :> F by rewrite sqrtr_eq0 -ltNge ltr0n.
rewrite /gaussian /=; eexists; split; [reflexivity|].
rewrite !scaleE !addE !oppE !mxE /= divff // !rmorphN /= ?mulr0 ?mulr1 ?mul1r ?mul0r; simpc.
rewrite ?mulr0 ?mulr1 ?mul1r ?mul0r ?subr0 ?addr0 ?oppr0 ?add0r.
have h : 2%:R^-1 * (1 + 1) = 1 :> F by rewrite -mulr2n mulVf ?pnatr_eq0.
by rewrite -opprD mulrN h.
Qed.
End Example.

Print Assumptions C51_hermitian.
Print Assumptions C51_chiral.
Print Assumptions C51_time_reversal.
Print Assumptions C51_particle_hole.
Print Assumptions C51_t_table.
Print Assumptions C51_p_table.
Print Assumptions C51_sizes.
