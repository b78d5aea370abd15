(* C52: random scattering matrices have the symmetries of their class *)
From mathcomp Require Import all_ssreflect all_fingroup all_algebra zify.
From mathcomp Require Import complex.
From Verif Require Import Prelude RingTac Rmt PropRmt.

Set Implicit Arguments.
Unset Strict Implicit.
Unset Printing Implicit Defensive.
Import Order.TTheory GRing.Theory Num.Theory.
Local Open Scope ring_scope.

Section Circular.
Variables (F : rcfType) (n : nat).
Local Notation C := F[i].
Implicit Types (s r h S : 'M[C]_n).

(* ---- specification ---- *)
(* the contract of the QR decomposition *)
Definition upper r := forall i j : 'I_n, (j < i)%N -> r i j = 0.
Definition is_qr h (sr : 'M[C]_n * 'M[C]_n) := [/\ adj sr.1 *m sr.1 = 1%:M, upper sr.2 & h = sr.1 *m sr.2].
Definition sigma_y : 'M[C]_n := site_op n [:: [:: 0; - 'i]; [:: 'i; 0]].
(* the relations of the documentation, 219-236 *)
Definition chiral_rel sym S := chiral_class sym -> S = adj S.
Definition time_rel sym S :=
  match sym with
  | cAI | cBDI => S = S^T
  | cCI => S = - (sigma_y *m S^T *m sigma_y)
  | cAII | cDIII => S = - S^T
  | cCII => S = sigma_y *m S^T *m sigma_y
  | _ => True
  end.
Definition ph_rel sym S :=
  match sym with
  | cCI => S = - (sigma_y *m conjm S *m sigma_y)
  | cC | cCII => S = sigma_y *m conjm S *m sigma_y
  | cD | cBDI => S = conjm S
  | cDIII => - S = conjm S
  | _ => True
  end.

(* ---- algebra ---- *)
Lemma conjm_mul (A B : 'M[C]_n) : conjm (A *m B) = conjm A *m conjm B. Proof. exact: (map_mxM (conjc_rmorphism F)). Qed.
Lemma conjmK (A : 'M[C]_n) : conjm (conjm A) = A. Proof. by apply/matrixP => i j; rewrite !mxE conjcK. Qed.
Lemma conjm_tr (A : 'M[C]_n) : conjm A^T = (conjm A)^T. Proof. by apply/matrixP => i j; rewrite !mxE. Qed.
Lemma conjm1 : conjm (1%:M : 'M[C]_n) = 1%:M. Proof. exact: (map_mx1 (conjc_rmorphism F)). Qed.
Lemma conjmN (A : 'M[C]_n) : conjm (- A) = - conjm A. Proof. exact: (map_mxN (conjc_rmorphism F)). Qed.
Lemma adj_mul (A B : 'M[C]_n) : adj (A *m B) = adj B *m adj A. Proof. by rewrite /adj trmx_mul conjm_mul. Qed.
Lemma adjK (A : 'M[C]_n) : adj (adj A) = A. Proof. by apply/matrixP => i j; rewrite !mxE conjcK. Qed.
Lemma adj1 : adj (1%:M : 'M[C]_n) = 1%:M. Proof. by rewrite /adj trmx1 conjm1. Qed.

Lemma conj_pos (x : C) : 0 < x -> conjc x = x.
Proof.
move=> p; have := sqr_normc x; rewrite gtr0_norm // expr2 => /(mulfI _) <- //; by rewrite gt_eqF.
Qed.

(* an upper triangular matrix with positive diagonal determines the unitary factor *)
Lemma qr_unique T r1 r2 : adj T *m T = 1%:M -> upper r1 -> upper r2 -> (forall j, 0 < r1 j j) -> (forall j, 0 < r2 j j) ->
  T *m r1 = r2 -> T = 1%:M.
Proof.
move=> uT up1 up2 p1 p2 e.
suff H (k : nat) (j : 'I_n) : (j < k)%N -> forall i, T i j = (i == j)%:R.
  by apply/matrixP => i j; rewrite (H j.+1) // mxE.
elim: k j => [|k IH] j //; rewrite ltnS => jk.
have IHj (l : 'I_n) : (l < j)%N -> forall i, T i l = (i == l)%:R by move=> lj; apply: IH; apply: leq_trans jk.
(* rows above j *)
have row0 (i : 'I_n) : (i < j)%N -> T i j = 0.
  move=> ij; have := congr1 (fun A : 'M_n => A i j) uT; rewrite !mxE (bigD1 i) //= big1 => [|l li].
    by rewrite !mxE IHj // eqxx conjc_nat mul1r addr0 -(inj_eq val_inj) ltn_eqF.
  by rewrite !mxE IHj // (negPf li) conjc_nat mul0r.
have col (i : 'I_n) : T i j * r1 j j = r2 i j - (if (i < j)%N then r1 i j else 0).
  rewrite -e mxE (bigD1 j) //= (bigID (fun l : 'I_n => (l < j)%N)) /= [X in _ + (_ + X)]big1 ?addr0; last first.
    by move=> l /andP[lj]; rewrite -leqNgt => jl; rewrite up1 ?mulr0 // ltn_neqAle jl andbT eq_sym.
  rewrite -addrA -[LHS]addr0; congr (_ + _).
  case: ifP => ij; last first.
    rewrite oppr0 addr0 big1 // => l /andP[_ lj]; rewrite IHj //; case: eqP => [il|_]; last by rewrite mul0r.
    by move: lj; rewrite -il ij.
  rewrite (bigD1 i) /=; last by rewrite ij andbT -(inj_eq val_inj) ltn_eqF.
  rewrite IHj // eqxx mul1r big1 ?addr0 ?subrr // => l /andP[/andP[_ lj] li].
  by rewrite IHj // eq_sym (negPf li) mul0r.
have nz : r1 j j != 0 by rewrite gt_eqF.
have Tj : T j j = 1.
  have := col j; rewrite ltnn subr0 => ej.
  have pT : 0 < T j j by rewrite -(pmulr_lgt0 _ (p1 j)) ej.
  have nT : conjc (T j j) * T j j = 1.
    have := congr1 (fun A : 'M_n => A j j) uT; rewrite !mxE eqxx (bigD1 j) //= !mxE big1 ?addr0 // => l lj.
    rewrite !mxE; have [lt|ge] := ltnP l j; first by rewrite row0 // mulr0.
    have := col l; rewrite ltnNge ge /= subr0 up2 => [/eqP|]; last by rewrite ltn_neqAle ge andbT eq_sym.
    by rewrite mulf_eq0 (negPf nz) orbF => /eqP ->; rewrite mulr0.
  have cT : conjc (T j j) = T j j := conj_pos pT.
  move: nT; rewrite cT -expr2 => /eqP; rewrite sqrf_eq1 => /orP[/eqP //|/eqP m1].
  by move: pT; rewrite m1 oppr_gt0 ltr10.
move=> i; have [-> //|ne] := eqVneq i j.
have [lt|ge] := ltnP i j; first by rewrite row0.
have := col i; rewrite ltnNge ge /= subr0 up2 => [/eqP|]; last by rewrite ltn_neqAle ge andbT eq_sym.
by rewrite mulf_eq0 (negPf nz) orbF => /eqP.
Qed.
(* ---- the phases of the columns ---- *)
Definition phased s r : 'M[C]_n := \matrix_(i, j) (s i j * (r j j / `|r j j|)).
Definition positive_r r : 'M[C]_n := \matrix_(i, j) (conjc (r i i / `|r i i|) * r i j).
Lemma phase_conj (x : C) : x != 0 -> conjc (x / `|x|) * (x / `|x|) = 1.
Proof.
move=> nz; rewrite mulrC -sqr_normc normf_div normr_id divff ?expr1n // normr_eq0 //.
Qed.
Lemma phase_pos (x : C) : x != 0 -> conjc (x / `|x|) * x = `|x|.
Proof.
move=> nz; have n0 : `|x| != 0 by rewrite normr_eq0.
by rewrite -[X in _ * X](divfK n0) mulrA phase_conj // mul1r.
Qed.
Lemma phasedP s r : adj s *m s = 1%:M -> upper r -> (forall j, r j j != 0) ->
  [/\ adj (phased s r) *m phased s r = 1%:M, upper (positive_r r), forall j, 0 < positive_r r j j
    & phased s r *m positive_r r = s *m r].
Proof.
move=> us up nz; split.
- apply/matrixP => i j; rewrite mxE.
  have -> : \sum_k adj (phased s r) i k * phased s r k j = conjc (r i i / `|r i i|) * (adj s *m s) i j * (r j j / `|r j j|).
    rewrite mxE mulr_sumr mulr_suml; apply: eq_bigr => k _; rewrite !mxE [conjc (s k i * _)]conjM.
    by rewrite [X in X * _ = _]mulrC !mulrA.
  rewrite us !mxE; case: eqP => [->|_]; last by rewrite mulr0 mul0r.
  by rewrite mulr1 phase_conj.
- by move=> i j ji; rewrite mxE (up _ _ ji) mulr0.
- by move=> j; rewrite mxE phase_pos // normr_gt0.
- apply/matrixP => i j; rewrite !mxE; apply: eq_bigr => k _; rewrite !mxE.
  by rewrite -mulrA; congr (_ * _); rewrite mulrA [X in X * _]mulrC phase_conj // mul1r.
Qed.
Lemma det_upper r : upper r -> \det r = \prod_j r j j.
Proof.
move=> up; rewrite -det_tr det_trig; last by apply/is_trig_mxP => i j ij; rewrite mxE up.
by apply: eq_bigr => j _; rewrite mxE.
Qed.
Lemma diag_nz h sr : is_qr h sr -> h \in unitmx -> forall j, sr.2 j j != 0.
Proof.
case=> _ up ->; rewrite unitmxE det_mulmx unitfE mulf_eq0 negb_or => /andP[_].
by rewrite det_upper // => /prodf_neq0 H j; apply: H.
Qed.

(* ---- antilinear maps preserving the upper triangular matrices ---- *)
Lemma unitary_r s : adj s *m s = 1%:M -> s *m adj s = 1%:M. Proof. exact: mulmx1C. Qed.
Lemma fixed (f : 'M[C]_n -> 'M[C]_n) s r h :
  (forall A B, f (A *m B) = f A *m f B) -> (forall A, f (adj A) = adj (f A)) -> f 1%:M = 1%:M ->
  adj s *m s = 1%:M -> upper r -> (forall j, 0 < r j j) -> upper (f r) -> (forall j, 0 < f r j j) ->
  s *m r = h -> f h = h -> f s = s.
Proof.
move=> fM fa f1 us up pr ufr pfr e fh.
have uf : adj (f s) *m f s = 1%:M by rewrite -fa -fM us f1.
suff : adj s *m f s = 1%:M by move=> E; rewrite -[f s]mul1mx -(unitary_r us) -mulmxA E mulmx1.
apply: (@qr_unique _ (f r) r) => //.
- by rewrite adj_mul adjK mulmxA -[_ *m s *m _]mulmxA (unitary_r us) mulmx1.
- by rewrite -mulmxA -fM e fh -e mulmxA us mul1mx.
Qed.

Lemma real_fixed s r h : adj s *m s = 1%:M -> upper r -> (forall j, 0 < r j j) -> s *m r = h -> conjm h = h -> conjm s = s.
Proof.
move=> us up pr e ch.
apply: (@fixed (fun A => conjm A) s r h) => //.
- exact: conjm_mul.
- by move=> A; rewrite /adj !conjm_tr conjmK.
- exact: conjm1.
- by move=> i j ij; rewrite mxE up // conjc0.
- by move=> j; rewrite mxE conj_pos.
Qed.

Section Even.
Hypothesis en : ~~ odd n.
Definition Y : 'M[C]_n := mono (@X_ n) (fun i => z_ F i * 'i).
Lemma YE i j : Y i j = if j == X_ i then z_ F i * 'i else 0. Proof. by rewrite mxE. Qed.
Lemma eq_XX (i j : 'I_n) : (j == X_ i) = (i == X_ j).
Proof. by apply/eqP/eqP => ->; rewrite X_K. Qed.
Lemma sigma_Y : sigma_y = - Y.
Proof.
rewrite /Y -site_tau_y //; apply/matrixP => i j; rewrite !mxE /=; case: ifP; rewrite ?oppr0 // !modn2 => _.
by case: (odd i); case: (odd j); rewrite /= ?oppr0 ?opprK.
Qed.
Lemma Y_tr : Y^T = - Y.
Proof.
apply/matrixP => i j; rewrite mxE oppE !YE eq_XX; case: eqP => [->|]; last by rewrite oppr0.
by rewrite z_X // mulNr.
Qed.
Lemma Y_conj : conjm Y = - Y.
Proof.
apply/matrixP => i j; rewrite mxE oppE !YE; case: ifP; last by rewrite conjc0 oppr0.
by rewrite conjM z_c conj_i mulrN.
Qed.
Lemma Y_adj : adj Y = Y. Proof. by rewrite /adj Y_tr conjmN Y_conj opprK. Qed.
Lemma YY : Y *m Y = 1%:M.
Proof.
rewrite -{2}Y_adj; apply: mono_unitary; first exact: (can_inj (X_K en)).
by move=> i; rewrite conjM z_c conj_i mulrACA z_z mul1r mulrN ii opprK.
Qed.
(* the antilinear map whose fixed points are the symplectic matrices *)
Definition Th (A : 'M[C]_n) := Y *m conjm A *m Y.
Lemma ThE A i j : Th A i j = z_ F i * conjc (A (X_ i) (X_ j)) * z_ F j.
Proof. by rewrite /Th -{2}Y_adj mono_sym i_sandwich z_c. Qed.
Lemma Th_sigma A : Th A = sigma_y *m conjm A *m sigma_y.
Proof. by rewrite sigma_Y mulNmx mulNmx mulmxN opprK. Qed.
Lemma Th_mul A B : Th (A *m B) = Th A *m Th B.
Proof. by rewrite /Th conjm_mul !mulmxA -[_ *m Y *m Y]mulmxA YY mulmx1. Qed.
Lemma Th_adj A : Th (adj A) = adj (Th A).
Proof. by rewrite /Th !adj_mul Y_adj mulmxA /adj !conjm_tr !conjmK. Qed.
Lemma Th1 : Th 1%:M = 1%:M. Proof. by rewrite /Th conjm1 mulmx1 YY. Qed.
Lemma ThK A : Th (Th A) = A.
Proof.
rewrite /Th !conjm_mul conjmK Y_conj !(mulNmx, mulmxN) opprK !mulmxA YY mul1mx.
by rewrite -mulmxA YY mulmx1.
Qed.

(* the QR decomposition of a symplectic matrix: the part of r above the diagonal vanishes inside every pair *)
Section Symplectic.
Variables (h s r : 'M[C]_n).
Hypotheses (us : adj s *m s = 1%:M) (up : upper r) (nz : forall j, r j j != 0) (e : h = s *m r) (sh : Th h = h).
Let T := adj s *m Th s.
Lemma T_r : T *m Th r = r.
Proof. by rewrite /T -mulmxA -Th_mul -e sh e mulmxA us mul1mx. Qed.
Lemma adjE (A : 'M[C]_n) i j : adj A i j = conjc (A j i). Proof. by rewrite !mxE. Qed.
Lemma T_pair i : T i (X_ i) = 0.
Proof.
have : Th T = adj T by rewrite /T Th_mul Th_adj ThK adj_mul adjK.
move=> /(congr1 (fun A : 'M_n => A (X_ i) i)); rewrite ThE adjE (X_K en) (z_X _ en) !mulNr mulrAC z_z mul1r => /eqP.
by rewrite eq_sym -subr_eq0 opprK -mulr2n mulrn_eq0 /= conjc_eq0 => /eqP.
Qed.
Lemma T_lower k (i l : 'I_n) : (l %/ 2 < k)%N -> (l %/ 2 < i %/ 2)%N -> T i l = 0.
Proof.
elim: k i l => // k IH i l; rewrite ltnS => lk li.
have key (m : 'I_n) : (m %/ 2 <= k)%N -> (m %/ 2 < i %/ 2)%N -> T i (X_ m) * conjc (r m (X_ m)) = 0 -> T i m = 0.
  move=> mk mi zX; have : (T *m Th r) i m = 0 by rewrite T_r up //; lia.
  rewrite mxE (bigD1 m) //= big1 => [|l' lm].
    rewrite addr0 ThE mulrAC z_z mul1r => /eqP; rewrite mulf_eq0 conjc_eq0 (negPf (nz _)) orbF.
    by move=> /eqP.
  have [->|lX] := eqVneq l' (X_ m).
    by rewrite ThE (X_K en) mulrA mulrA [T _ _ * _]mulrC -[_ * T _ _ * _]mulrA zX mulr0 mul0r.
  have [lt|ge] := ltnP (l' %/ 2) (m %/ 2).
    by rewrite IH ?mul0r //; [apply: leq_trans lt mk | apply: ltn_trans lt mi].
  rewrite ThE up ?conjc0 ?mulr0 ?mul0r ?mulr0 //; move: lm lX; rewrite -!(inj_eq val_inj) /= !(val_X en).
  rewrite /flip; case: ifP; case: ifP; lia.
have [ol|el] := boolP (odd l).
  by apply: key => //; rewrite up ?conjc0 ?mulr0 // (val_X en) /flip ol; lia.
have kl := key l; apply: kl => //; rewrite (key (X_ l)) ?mul0r // ?(val_X en) /flip ?(negPf el); try lia.
by rewrite up ?conjc0 ?mulr0 // (X_K en) (val_X en) /flip (negPf el).
Qed.
Lemma qr_pairs (i j : 'I_n) : j = i.+1 :> nat -> ~~ odd i -> r i j = 0.
Proof.
move=> ji oi; have jX : j = X_ i by apply: val_inj; rewrite /= (val_X en) /flip (negPf oi) ji.
rewrite -T_r mxE big1 // => l _; rewrite ThE.
have [lt|ge] := ltnP (l %/ 2) (i %/ 2); first by rewrite (T_lower (k := (l %/ 2).+1)) // mul0r.
have [lj|lj] := eqVneq l j; first by rewrite lj jX T_pair mul0r.
rewrite jX (X_K en) up ?conjc0 ?mulr0 ?mul0r ?mulr0 //.
rewrite (val_X en) /flip; move: lj; rewrite -(inj_eq val_inj) /= ji => lj; case: ifP; lia.
Qed.
End Symplectic.

Lemma symplectic_fixed h s r : adj s *m s = 1%:M -> upper r -> (forall j, 0 < r j j) -> (forall i j : 'I_n, j = i.+1 :> nat -> ~~ odd i -> r i j = 0) ->
  s *m r = h -> Th h = h -> Th s = s.
Proof.
move=> us up pr sup e sh.
apply: (@fixed Th s r h) => //.
- exact: Th_mul.
- exact: Th_adj.
- exact: Th1.
- move=> i j ij; rewrite ThE.
  suff -> : r (X_ i) (X_ j) = 0 by rewrite conjc0 mulr0 mul0r.
  have [lt|ge] := ltnP (X_ j) (X_ i); first by rewrite up.
  by apply: sup; move: ge; rewrite !(val_X en) ?odd_flip /flip; case: ifP; case: ifP; lia.
- by move=> j; rewrite ThE conj_pos // mulrAC z_z mul1r.
Qed.
End Even.
(* ---- the result ---- *)
(* the Gaussian matrix that is decomposed, 253-268 *)
Definition prepared sym (A B : 'M[F]_n) : 'M[C]_n :=
  if p_sq sym == 1 then toC A
  else if p_sq sym == 0 then toC A + 'i *: toC B
  else 'i *: ((toC A + 'i *: toC B) - sigma_y *m conjm (toC A + 'i *: toC B) *m sigma_y).
Definition symplectic s := ~~ odd n /\ sigma_y *m conjm s *m sigma_y = s.
Definition group_elt sym s :=
  [/\ adj s *m s = 1%:M, p_sq sym = 1 -> conjm s = s, p_sq sym = -1 -> symplectic s
    & (t_sq sym == -1) || (p_sq sym == -1) -> ~~ odd n].
Definition swapped (i : nat) := if i == n.-1 then n.-2 else if i == n.-2 then n.-1 else i.
Definition stage2 sym (charge : option int) s : res 'M[C]_n :=
  match sym, charge with
  | cD, Some q | cDIII, Some q =>
    if (q != 1) && (q != -1) then Err ValueError else
    let det := \det s in
    let det := if sym is cDIII then det * (-1) ^+ (n %/ 2) else det in
    if (0 < q) != positive det then
      if (n < 2)%N then Err IndexError else Ok (rows swapped s)
    else Ok s
  | _, _ => Ok s
  end.
Definition diagonal sym (charge : option int) (bits : nat -> bool) : res (nat -> int) :=
  match sym, charge with
  | cCII, None => Ok (fun k => 2 * (bits (k %/ 2)%N : nat)%:Z - 1)
  | cCII, Some q =>
    if (0 <= q) && (q <= (n %/ 2)%:Z) then
      let q := 2 * q in Ok (nth 0 (nseq (absz q) (-1 : int) ++ nseq (n - absz q) 1))
    else Err ValueError
  | _, None => Ok (fun k => 2 * (bits k : nat)%:Z - 1)
  | _, Some q =>
    if (0 <= q) && (q <= n%:Z) then Ok (nth 0 (nseq (absz q) (-1 : int) ++ nseq (n - absz q) 1))
    else Err ValueError
  end.
Definition stage3 sym charge bits s : res 'M[C]_n :=
  let tau_z := repeated n 2 [:: 1; -1] in
  let idx_x := shifted tau_z in
  match sym with
  | cAI => Ok (s^T *m s)
  | cCI => let s := s^T *m s in Ok (\matrix_(i, j) ('i * (tau_z`_j)%:~R * (cols idx_x s) i j))
  | cAII | cDIII => Ok ('i *: ((\matrix_(i, j) (s^T i j * (tau_z`_j)%:~R)) *m rows idx_x s))
  | cAIII | cBDI | cCII =>
    do diag <- diagonal sym charge bits;
    Ok ((\matrix_(i, j) ((diag j)%:~R * (conjm s^T) i j)) *m s)
  | _ => Ok s
  end.

Lemma prepared_twist (h : 'M[C]_n) : ~~ odd n ->
  twist (repeated n 2 [:: 1; -1]) (shifted (repeated n 2 [:: 1; -1])) h = sigma_y *m conjm h *m sigma_y.
Proof. by move=> en; rewrite -Th_sigma //; apply/matrixP => i j; rewrite twistE // ThE. Qed.
Lemma prepared_real sym A B : p_sq sym = 1 -> conjm (prepared sym A B) = prepared sym A B.
Proof. by rewrite /prepared => ->; apply/matrixP => i j; rewrite !mxE conj_r. Qed.
Lemma conjmD (G H : 'M[C]_n) : conjm (G + H) = conjm G + conjm H. Proof. exact: (map_mxD (conjc_rmorphism F)). Qed.
Lemma conjmZ c (H : 'M[C]_n) : conjm (c *: H) = conjc c *: conjm H. Proof. exact: (map_mxZ (conjc_rmorphism F)). Qed.
Lemma prepared_symplectic sym A B : ~~ odd n -> p_sq sym = -1 -> Th (prepared sym A B) = prepared sym A B.
Proof.
move=> en; rewrite /prepared => -> /=; move: (toC A + _) => h; rewrite -Th_sigma //.
have ThZ c (G : 'M[C]_n) : Th (c *: G) = conjc c *: Th G by rewrite /Th conjmZ -scalemxAr -scalemxAl.
have ThB (G H : 'M[C]_n) : Th (G - H) = Th G - Th H by rewrite /Th conjmD conjmN mulmxDr mulmxDl mulmxN mulNmx.
by rewrite ThZ ThB ThK // conj_i scaleNr -scalerN opprB.
Qed.

Section Main.
Variables (qr : 'M[C]_n -> 'M[C]_n * 'M[C]_n) (sym : sym_class) (A B : 'M[F]_n).
Let h := prepared sym A B.
Hypotheses (hq : is_qr h (qr h)) (hu : h \in unitmx).

Lemma circularE charge bits : ~~ (((t_sq sym == -1) || (p_sq sym == -1)) && odd n) ->
  exists2 s, group_elt sym s & circular qr (Some sym) charge A B bits = do s <- stage2 sym charge s; stage3 sym charge bits s.
Proof.
move=> hn; have nz := diag_nz hq hu; case: (hq) => us up e.
have [us' upR pR eR] := phasedP us up nz.
have ev : (t_sq sym == -1) || (p_sq sym == -1) -> ~~ odd n by move=> H; move: hn; rewrite H.
have pairs : p_sq sym = -1 -> forall i j : 'I_n, j = i.+1 :> nat -> ~~ odd i -> (qr h).2 i j = 0.
  move=> ps; have en : ~~ odd n by apply: ev; rewrite ps orbT.
  by apply: (qr_pairs en us up nz e); apply: prepared_symplectic.
exists (phased (qr h).1 (qr h).2).
  split=> //.
  - by move=> p1; apply: (real_fixed us' upR pR (h := h)); rewrite ?eR // prepared_real.
  - move=> ps; have en : ~~ odd n by apply: ev; rewrite ps orbT.
    split=> //; rewrite -Th_sigma //; apply: (symplectic_fixed en us' upR pR (h := h)); rewrite ?eR //.
      by move=> i j ij oi; rewrite mxE (pairs ps i j ij oi) mulr0.
    exact: prepared_symplectic.
rewrite /circular (negPf hn) /=.
set h' := if _ then _ else _.
have -> : h' = h.
  rewrite /h' /h /prepared; case: ifP => // p1; case: ifP => // p0; rewrite prepared_twist //; apply: ev.
  by move: p1 p0; case: (sym).
case E : (qr h) => [s r]; rewrite E /= in pairs *.
case: ifP => [/andP[/eqP ps /negP[]]|_] //.
by apply/forallP => i; apply/forallP => j; apply/implyP => /andP[/eqP ij oi]; rewrite pairs.
Qed.
End Main.
Lemma rows_mono f s : rows f s = mono (fun i : 'I_n => insubd i (f i)) (fun => 1) *m s.
Proof. by apply/matrixP => i j; rewrite mono_mull mul1r mxE. Qed.
Definition swap_ (i : 'I_n) : 'I_n := insubd i (swapped i).
Lemma val_swap i : (2 <= n)%N -> swap_ i = swapped i :> nat.
Proof.
move=> n2; rewrite /swap_ insubdK // unfold_in /swapped; have := ltn_ord i; case: ifP => // _; [lia|case: ifP => // _; lia].
Qed.
Lemma swap_K : (2 <= n)%N -> involutive swap_.
Proof.
move=> n2 i; apply: val_inj; rewrite /= !val_swap // /swapped.
by case: (eqVneq (i : nat) n.-1) => [->|]; [|case: (eqVneq (i : nat) n.-2) => [->|]] => *; repeat case: ifP; lia.
Qed.
Lemma stage2P sym charge s s' : group_elt sym s -> stage2 sym charge s = Ok s' -> group_elt sym s'.
Proof.
move=> g; have [us re sy ev] := g.
have sw : (2 <= n)%N -> p_sq sym = 1 -> group_elt sym (rows swapped s).
  move=> n2 p1; rewrite rows_mono; set M := mono _ _.
  have uM : adj M *m M = 1%:M.
    apply: mulmx1C; apply: mono_unitary; first exact: (can_inj (swap_K n2)).
    by move=> i; rewrite conj_1 mulr1.
  have cM : conjm M = M by apply/matrixP => i j; rewrite !mxE; case: ifP; rewrite ?conj_1 ?conjc0.
  split=> //; last by rewrite p1.
  - by rewrite adj_mul mulmxA -[_ *m _ *m M]mulmxA uM mulmx1.
  - by move=> _; rewrite conjm_mul cM re.
rewrite /stage2; case: sym g sw {us re sy ev} => g sw; case: charge => [q|]; try (by move=> E; injection E => <-).
- by case: ifP => // _; case: ifP => _; [case: ltnP => // n2 [<-]; apply: sw|case=> <-].
- by case: ifP => // _; case: ifP => _; [case: ltnP => // n2 [<-]; apply: sw|case=> <-].
Qed.

(* the three kinds of results *)
Lemma CI_form s : ~~ odd n ->
  \matrix_(i, j) ('i * ((repeated n 2 [:: 1; -1])`_j)%:~R * (cols (shifted (repeated n 2 [:: 1; -1])) s) i j) = - (s *m Y).
Proof.
move=> en; apply/matrixP => i j; rewrite !mxE (bigD1 (X_ j)) //= YE (X_K en) eqxx big1 => [|k /negPf kj].
  rewrite addr0 (z_X F en) mulNr mulrN opprK tau_zE //; rewrite /X_ shifted_tau //.
  by rewrite [RHS]mulrC; congr (_ * _); rewrite mulrC.
by rewrite YE eq_XX // kj mulr0.
Qed.
Lemma AII_form s : ~~ odd n ->
  'i *: ((\matrix_(i, j) (s^T i j * ((repeated n 2 [:: 1; -1])`_j)%:~R)) *m rows (shifted (repeated n 2 [:: 1; -1])) s) = s^T *m Y *m s.
Proof.
move=> en; apply/matrixP => i j; rewrite scaleE -mulmxA !mxE mulr_sumr; apply: eq_bigr => k _.
rewrite mono_mull ![s^T _ _]mxE !mxE tau_zE // /X_ shifted_tau // -!mulrA mulrCA; congr (_ * _).
by rewrite mulrCA.
Qed.
Definition diag_of (d : nat -> int) : 'M[C]_n := mono id (fun i => (d i)%:~R).
Lemma chiral_form (d : nat -> int) s : (\matrix_(i, j) ((d j)%:~R * (conjm s^T) i j)) *m s = adj s *m diag_of d *m s.
Proof.
apply/matrixP => i j; rewrite -mulmxA !mxE; apply: eq_bigr => k _; rewrite mono_mull !mxE.
by rewrite mulrAC mulrC mulrA.
Qed.
Lemma diagonalP sym charge bits d : (sym = cCII -> ~~ odd n) -> diagonal sym charge bits = Ok d ->
  (forall i : 'I_n, d i = 1 \/ d i = -1) /\ (if sym is cCII then forall i : 'I_n, d (X_ i) = d i else True).
Proof.
have bit (b : bool) : 2 * (b : nat)%:Z - 1 = 1 \/ 2 * (b : nat)%:Z - 1 = -1 by case: b; [left|right].
have ns (q : nat) (i : 'I_n) : (q <= n)%N -> nth 0 (nseq q (-1 : int) ++ nseq (n - q) 1) i = if (i < q)%N then -1 else 1.
  move=> qn; rewrite nth_cat size_nseq !nth_nseq; have := ltn_ord i; case: (ltnP i q) => // qi lt.
  by have -> : (i - q < n - q)%N by lia.
have ns' (q : nat) (i : 'I_n) : (q <= n)%N -> nth 0 (nseq q (-1 : int) ++ nseq (n - q) 1) i = 1 \/ nth 0 (nseq q (-1 : int) ++ nseq (n - q) 1) i = -1.
  by move=> qn; rewrite ns //; case: ifP; [right|left].
have gen : (if charge is Some q then if (0 <= q) && (q <= n%:Z) then Ok (nth 0 (nseq (absz q) (-1 : int) ++ nseq (n - absz q) 1))
    else Err ValueError else Ok (fun k => 2 * (bits k : nat)%:Z - 1)) = Ok d -> forall i : 'I_n, d i = 1 \/ d i = -1.
  by case: charge => [q|]; [case: ifP => // /andP[q0 qn] [<-] i; apply: ns'; lia|case=> <- i; apply: bit].
case: sym => en; rewrite /diagonal; try by move=> /gen.
move: (en erefl) => {}en; case: charge {gen} => [q|].
  case: ifP => // /andP[q0 qn] [<-].
  have qn' : (absz (2 * q)%R <= n)%N by move: qn; have := leq_trunc_div n 2; lia.
  split=> i; first exact: ns'.
  rewrite !ns // (val_X en); have -> : (flip i < absz (2 * q)%R)%N = (i < absz (2 * q)%R)%N by rewrite /flip; case: ifP; lia.
  by [].
case=> <-; split=> i; first exact: bit.
rewrite (val_X en); have -> : (flip i %/ 2)%N = (i %/ 2)%N by rewrite /flip; case: ifP; lia.
by [].
Qed.

Section Result.
Lemma U_mul (A B : 'M[C]_n) : is_unitary A -> is_unitary B -> is_unitary (A *m B).
Proof. by rewrite /is_unitary => a b; rewrite adj_mul !mulmxA -[A *m B *m _]mulmxA b mulmx1. Qed.
Lemma U_tr (A : 'M[C]_n) : is_unitary A -> is_unitary A^T.
Proof.
move=> /(mulmx1C) /(congr1 trmx); rewrite trmx_mul trmx1 => E; rewrite /is_unitary -E.
by congr (_ *m _); apply/matrixP => i j; rewrite !mxE.
Qed.
Lemma U_adj (A : 'M[C]_n) : is_unitary A -> is_unitary (adj A).
Proof. by rewrite /is_unitary adjK => /mulmx1C. Qed.
Lemma U_opp (A : 'M[C]_n) : is_unitary A -> is_unitary (- A).
Proof. by move=> a; rewrite /is_unitary /adj linearN /= conjmN mulNmx mulmxN opprK. Qed.
Lemma U_Y : ~~ odd n -> is_unitary Y. Proof. by move=> en; rewrite /is_unitary Y_adj // YY. Qed.
Variables (sym : sym_class) (charge : option int) (bits : nat -> bool) (s S : 'M[C]_n).
Hypotheses (g : group_elt sym s) (ret : stage3 sym charge bits s = Ok S).
Lemma U_s : is_unitary s. Proof. by case: g => /unitary_r. Qed.

Lemma result_CI : sym = cCI -> [/\ is_unitary S, time_rel sym S & ph_rel sym S].
Proof.
have us := U_s.
move=> E; move: g ret; rewrite E /= => -[_ _ /(_ erefl)[en sy] _]; rewrite CI_form // => -[<-].
rewrite -Th_sigma // in sy; rewrite sigma_Y //.
have cs : conjm s = Y *m s *m Y by rewrite -{2}sy /Th !mulmxA YY // mul1mx -mulmxA YY // mulmx1.
have Wt : (s^T *m s)^T = s^T *m s by rewrite trmx_mul trmxK.
have cW : conjm (s^T *m s) = Y *m (s^T *m s) *m Y.
  rewrite conjm_mul conjm_tr cs !trmx_mul Y_tr // mulNmx mulmxN mulmxN opprK !mulmxA.
  by rewrite -[_ *m Y *m Y]mulmxA YY // mulmx1.
split.
- by apply: U_opp; apply: U_mul; [apply: U_mul => //; apply: U_tr|apply: U_Y].
- have -> : (- (s^T *m s *m Y))^T = Y *m (s^T *m s) by rewrite [LHS]raddfN /= trmx_mul Wt Y_tr // mulNmx opprK.
  rewrite !mulNmx mulmxN opprK.
  by rewrite !mulmxA YY // mul1mx.
- have -> : conjm (- (s^T *m s *m Y)) = Y *m (s^T *m s).
    by rewrite conjmN conjm_mul cW Y_conj // mulmxN opprK -[_ *m Y *m Y]mulmxA YY // mulmx1.
  by rewrite !mulNmx mulmxN opprK !mulmxA YY // mul1mx.
Qed.
Lemma result_AII : sym = cAII \/ sym = cDIII -> [/\ is_unitary S, time_rel sym S & ph_rel sym S].
Proof.
have us := U_s.
have [_ re _ ev] := g; move=> E.
have en : ~~ odd n by apply: ev; case: E => ->.
have eS : S = s^T *m Y *m s by case: E ret => ->; rewrite /= AII_form // => -[<-].
have uS : is_unitary S by rewrite eS; apply: U_mul => //; apply: U_mul; [apply: U_tr|apply: U_Y].
have tS : S = - S^T by rewrite eS !trmx_mul trmxK Y_tr // mulNmx mulmxN opprK mulmxA.
case: E => E; rewrite E; split=> //=.
by rewrite eS !conjm_mul conjm_tr re ?E // Y_conj // mulmxN mulNmx.
Qed.
Lemma result_chiral : sym = cAIII \/ sym = cBDI \/ sym = cCII -> [/\ is_unitary S, adj S = S & ph_rel sym S].
Proof.
have us := U_s.
have [_ re sy ev] := g; move=> E.
have [d [ed eS]] : exists d, diagonal sym charge bits = Ok d /\ S = adj s *m diag_of d *m s.
  move: ret; case: E => [->|[->|->]]; rewrite /stage3; case: (diagonal _ _ _) => // d; rewrite /= => -[<-];
    by exists d; split=> //; rewrite chiral_form.
have en : sym = cCII -> ~~ odd n by move=> Es; apply: ev; rewrite Es.
have [d1 dX] := diagonalP en ed.
have D2 (i : 'I_n) : conjc ((d i)%:~R : C) = (d i)%:~R by case: (d1 i) => ->; rewrite ?conjN conj_1.
have aD : adj (diag_of d) = diag_of d.
  apply/matrixP => i j; rewrite !mxE eq_sym; case: eqP => [->|]; last by rewrite conjc0.
  by rewrite D2.
have uD : is_unitary (diag_of d).
  by apply: mono_unitary => // i; rewrite D2; case: (d1 i) => ->; rewrite ?rmorphN ?mulrNN mulr1.
split.
- by rewrite eS; apply: U_mul => //; apply: U_mul => //; apply: U_adj.
- by rewrite eS !adj_mul adjK aD mulmxA.
case: E => [->//|[E|E]]; rewrite E /=.
- have cs := re; rewrite E /= in cs; rewrite eS !conjm_mul /adj !conjm_tr conjmK cs //.
  by congr (_ *m _ *m _); apply/matrixP => i j; rewrite !mxE; case: ifP => _; rewrite ?D2 ?conjc0.
- rewrite E in dX; have [en' Es] : symplectic s by apply: sy; rewrite E.
  rewrite -Th_sigma // in Es; rewrite -Th_sigma // eS !(Th_mul en') Th_adj // Es; congr (_ *m _ *m _).
  apply/matrixP => i j; rewrite ThE // !mxE (can_eq (X_K en')); case: eqP => [->|]; last by rewrite conjc0 mulr0 mul0r.
  by rewrite dX D2 mulrAC z_z mul1r.
Qed.
End Result.

(* ---- theorems ---- *)
Section Main2.
Variables (qr : 'M[C]_n -> 'M[C]_n * 'M[C]_n) (sym : sym_class) (A B : 'M[F]_n) (charge : option int) (bits : nat -> bool).
Let h := prepared sym A B.
Hypotheses (hq : is_qr h (qr h)) (hu : h \in unitmx).
Lemma circularP S : circular qr (Some sym) charge A B bits = Ok S -> exists2 s, group_elt sym s & stage3 sym charge bits s = Ok S.
Proof.
have [bad|hn] := boolP (((t_sq sym == -1) || (p_sq sym == -1)) && odd n); first by rewrite /circular bad.
have [s g ->] := circularE hq hu charge bits hn.
by case E : stage2 => [s'|] //= E3; exists s' => //; apply: stage2P E.
Qed.
Theorem C52_relations S : circular qr (Some sym) charge A B bits = Ok S ->
  [/\ is_unitary S, chiral_rel sym S, time_rel sym S & ph_rel sym S].
Proof.
move=> /circularP[s g E]; have us := U_s g; have [_ re sy ev] := g.
have adj_tr (T : 'M[C]_n) : adj T = T -> T^T = conjm T by move=> {1}<-; apply/matrixP => i j; rewrite !mxE.
have two : is_unitary S /\ [/\ chiral_class sym -> time_rel sym S -> ph_rel sym S -> S = adj S, time_rel sym S & ph_rel sym S].
  case: (sym) g E re sy ev => g E re sy ev.
  - by case: E => <-; split.
  - by case: E => <-; split; [apply: U_mul => //; apply: U_tr|split=> //=; rewrite trmx_mul trmxK].
  - by have [u t p] := result_AII g E (or_introl erefl).
  - by have [u t p] := result_chiral g E (or_introl erefl); split=> //; split.
  - have [u t p] := result_chiral g E (or_intror (or_introl erefl)); split=> //; split=> //=.
    by rewrite (adj_tr _ t).
  - have [u t p] := result_chiral g E (or_intror (or_intror erefl)); split=> //; split=> //=.
    by rewrite (adj_tr _ t).
  - by case: E => <-; split=> //; split=> //=; rewrite re.
  - have [u t p] := result_AII g E (or_intror erefl); split=> //; split=> //= _ t' p'.
    by rewrite /adj [LHS]t' conjm_tr -p' raddfN.
  - by case: E => <-; split=> //; split=> //=; case: sy.
  - have [u t p] := result_CI g E erefl; split=> //; split=> //= _ t' p'.
    have [en _] := sy erefl; have ss : sigma_y *m sigma_y = 1%:M by rewrite sigma_Y // mulNmx mulmxN opprK YY.
    have canc (G H : 'M[C]_n) : sigma_y *m G *m sigma_y = sigma_y *m H *m sigma_y -> G = H.
      move=> /(congr1 (fun K => sigma_y *m K *m sigma_y)); rewrite !mulmxA ss !mul1mx -!mulmxA ss !mulmx1 //.
    have e : S^T = conjm S by apply: canc; apply: oppr_inj; rewrite -t' -p'.
    by rewrite /adj e conjmK.
by case: two => u [ch t p]; split=> // c; apply: ch.
Qed.
Definition even_needed : bool := (t_sq sym == -1) || (p_sq sym == -1).
(* without a charge a matrix is always returned: the decomposition of a symplectic matrix never fails the test *)
Theorem C52_returns : charge = None -> ~~ (even_needed && odd n) -> exists S, circular qr (Some sym) charge A B bits = Ok S.
Proof.
move=> ch hn; have [s g ->] := circularE hq hu charge bits hn.
by rewrite ch; case: (sym); eexists.
Qed.
Theorem C52_sizes : even_needed && odd n -> circular qr (Some sym) charge A B bits = Err ValueError.
Proof. by move=> bad; rewrite /circular -/even_needed bad. Qed.

Lemma tr_diag (d : nat -> int) : \tr (diag_of d) = (\sum_(i < n) d i)%:~R.
Proof. by rewrite rmorph_sum; apply: eq_bigr => i _; rewrite !mxE eqxx. Qed.
Lemma sum_charge (q : nat) : (q <= n)%N -> \sum_(i < n) nth 0 (nseq q (-1 : int) ++ nseq (n - q) 1) i = n%:Z - 2 * q%:Z.
Proof.
move=> qn; rewrite -(big_mkord xpredT (fun i => nth 0 (nseq q (-1 : int) ++ nseq (n - q) 1) i)).
rewrite (big_cat_nat _ _ _ (leq0n q) qn) /=.
have -> : \sum_(0 <= i < q) (nseq q (-1 : int) ++ nseq (n - q) 1)`_i = \sum_(0 <= i < q) (-1).
  by apply: eq_big_nat => i /= iq; rewrite nth_cat size_nseq nth_nseq iq.
have -> : \sum_(q <= i < n) (nseq q (-1 : int) ++ nseq (n - q) 1)`_i = \sum_(q <= i < n) 1.
  apply: eq_big_nat => i /andP[qi lt]; rewrite nth_cat size_nseq !nth_nseq ltnNge qi /=.
  by have -> : (i - q < n - q)%N by lia.
by rewrite !sumr_const_nat mulNrn; lia.
Qed.
Theorem C52_chiral_charge q S : charge = Some q -> circular qr (Some sym) charge A B bits = Ok S ->
  ((sym = cAIII \/ sym = cBDI) -> (0 <= q <= n%:Z) /\ \tr S = (n%:Z - 2 * q)%:~R)
  /\ (sym = cCII -> (0 <= 2 * q <= n%:Z) /\ \tr S = (n%:Z - 4 * q)%:~R).
Proof.
move=> ch /circularP[s g E]; have us : s *m adj s = 1%:M := U_s g.
have tr (d : nat -> int) : \tr (adj s *m diag_of d *m s) = (\sum_(i < n) d i)%:~R.
  by rewrite mxtrace_mulC mulmxA us mul1mx tr_diag.
split=> Es.
  move: E; have -> : stage3 sym charge bits s = do d <- (if (0 <= q) && (q <= n%:Z) then Ok (nth 0 (nseq (absz q) (-1 : int) ++ nseq (n - absz q) 1))
    else Err ValueError); Ok ((\matrix_(i, j) ((d j)%:~R * (conjm s^T) i j)) *m s) by rewrite ch; case: Es => ->.
  case: ifP => // b /= [<-]; split=> //; rewrite chiral_form tr sum_charge; last by move: b; lia.
  by rewrite gez0_abs //; case/andP: b.
move: E; rewrite Es ch /=; case: ifP => // b /= [<-].
have b2 : (0 <= 2 * q <= n%:Z) by move: b; have := leq_trunc_div n 2; lia.
split=> //; rewrite chiral_form tr sum_charge; last by move: b2; lia.
by rewrite gez0_abs //; [congr (_%:~R); lia|case/andP: b2].
Qed.

Lemma det_swap (s : 'M[C]_n) : (2 <= n)%N -> \det (rows swapped s) = - \det s.
Proof.
move=> n2; have l1 : (n.-1 < n)%N by lia.
have l2 : (n.-2 < n)%N by lia.
have -> : rows swapped s = xrow (Ordinal l1) (Ordinal l2) s.
  apply/matrixP => i j; rewrite !mxE; congr (s _ _); apply: val_inj => /=; rewrite (val_swap i n2) /swapped.
  by case: tpermP => [->|->|/eqP ne1 /eqP ne2] /=; rewrite ?eqxx //; [case: eqP; lia|move: ne1 ne2; rewrite -!(inj_eq val_inj) => /negPf -> /negPf ->].
by rewrite xrowE det_mulmx det_perm odd_tperm -(inj_eq val_inj) /= (_ : n.-1 != n.-2) ?expr1 ?mulN1r //; lia.
Qed.
Theorem C52_D_charge q S : sym = cD -> charge = Some q -> circular qr (Some sym) charge A B bits = Ok S ->
  (q = 1 \/ q = -1) /\ \det S = q%:~R.
Proof.
move=> Es ch; have hn : ~~ (((t_sq sym == -1) || (p_sq sym == -1)) && odd n) by rewrite Es.
have [s g ->] := circularE hq hu charge bits hn; have [us re _ _] := g.
rewrite Es in re; rewrite Es ch /=.
have cs : conjc (\det s) = \det s.
  by have := det_map_mx (conjc_rmorphism F) s; rewrite -[map_mx _ s]/(conjm s) re.
have d2 : \det s = 1 \/ \det s = -1.
  have := congr1 determinant us; rewrite det_mulmx det1 /adj.
  rewrite -[conjm _]/(map_mx (conjc_rmorphism F) _) det_map_mx det_tr /= cs -expr2 => /eqP.
  by rewrite sqrf_eq1 => /orP[/eqP ->|/eqP ->]; [left|right].
case: ifP => // qq.
have q1 : q = 1 \/ q = -1 by move: qq; case: eqP => [->|_]; [left|case: eqP => // ->; right].
have posE : positive (1 : C) = true by rewrite /positive (Creal_ReP _ _) ?rpred1 // ltr01.
have posN : positive (-1 : C) = false by rewrite /positive (Creal_ReP _ _) ?rpredN ?rpred1 // oppr_gt0 ltr10.
case: ifP => [sw|/eqP sw].
  case: ltnP => // n2 [<-]; split=> //; rewrite det_swap //.
  by move: sw; case: d2 => ->; rewrite ?posE ?posN; case: q1 => -> //= _; rewrite ?opprK ?rmorphN.
case=> <-; split=> //; move: sw.
by case: d2 => ->; rewrite ?posE ?posN; case: q1 => -> //= _; rewrite ?rmorphN.
Qed.
End Main2.
End Circular.

(* ---- concrete cases ---- *)
Section Examples.
Variable F : rcfType.
Local Notation C := F[i].
(* the decomposition of matrices that are already upper triangular *)
Let qr0 n (h : 'M[C]_n) := (1%:M : 'M[C]_n, h).
Lemma qr0P n (c : C) : is_qr (c%:M : 'M[C]_n) (qr0 c%:M).
Proof.
split; rewrite /= ?mul1mx //; first by rewrite mulmx1 adj1.
by move=> i j ij; rewrite mxE -(inj_eq val_inj) /= gtn_eqF.
Qed.
Lemma preparedC n : ~~ odd n -> prepared cC (0 : 'M[F]_n) (1%:M : 'M[F]_n) = (- 2%:R)%:M.
Proof.
move=> en; rewrite /prepared /= -Th_sigma //; apply/matrixP => i j; rewrite scaleE addE oppE ThE // !mxE.
have rc0 : real_complex F 0 = 0 by [].
have rc1 : real_complex F 1 = 1 by [].
rewrite (can_eq (X_K en)); case: eqP => [->|_]; rewrite ?mulr1n ?mulr0n !rc0 ?rc1 add0r ?mulr0 ?mulr1.
  by rewrite conj_i mulrN mulNr opprK mulrAC z_z mul1r mulrDr ii -opprD.
by rewrite conjc0 mulr0 mul0r subrr mulr0.
Qed.
(* class C: the hypotheses hold and a matrix is returned *)
Example C52_example n : ~~ odd n ->
  let h := prepared cC (0 : 'M[F]_n) (1%:M : 'M[F]_n) in
  [/\ is_qr h (qr0 h), h \in unitmx & exists S, circular (@qr0 n) (Some cC) None 0 1%:M xpredT = Ok S].
Proof.
move=> en; have hp := preparedC en.
have q : is_qr (prepared cC (0 : 'M[F]_n) 1%:M) (qr0 (prepared cC (0 : 'M[F]_n) 1%:M)) by rewrite hp; apply: qr0P.
have u : prepared cC (0 : 'M[F]_n) (1%:M : 'M[F]_n) \in unitmx.
  by rewrite hp unitmxE det_scalar unitfE expf_neq0 // oppr_eq0 pnatr_eq0.
split=> //; apply: (@C52_returns F n (@qr0 n) cC 0 1%:M None xpredT q u) => //; by rewrite negb_and en orbT.
Qed.
(* a 1 by 1 matrix of class D with a charge: documented, but fails when the draw has the other sign *)
Theorem C52_charge_refuted : exists (A B : 'M[F]_1) bits,
  [/\ is_qr (prepared cD A B) (qr0 (prepared cD A B)), prepared cD A B \in unitmx
    & circular (@qr0 1) (Some cD) (Some (-1)) A B bits = Err IndexError].
Proof.
have e : prepared cD (1%:M : 'M[F]_1) 0 = 1%:M by rewrite /prepared /= /toC map_mx1.
exists 1%:M, 0, xpredT; rewrite e; split; [exact: qr0P|exact: unitmx1|].
rewrite /circular /= (_ : toC 1%:M = 1%:M) ?/toC ?map_mx1 //.
set s := \matrix_(i, j) _; have -> : s = 1%:M.
  by apply/matrixP => i j; rewrite !mxE !ord1 eqxx /= normr1 divr1 mulr1.
by rewrite det1 /positive (Creal_ReP _ _) ?rpred1 // ltr01.
Qed.
End Examples.

Print Assumptions C52_relations.
Print Assumptions C52_returns.
Print Assumptions C52_sizes.
Print Assumptions C52_chiral_charge.
Print Assumptions C52_D_charge.
Print Assumptions C52_charge_refuted.
