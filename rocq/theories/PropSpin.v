(* C44, C45, C47 and C86: angular momentum matrices. *)
From mathcomp Require Import all_ssreflect all_algebra.
From mathcomp Require Import complex zify.
From Verif Require Import Prelude PGE PGEProofs RingTac Spin LMatrices.

Set Implicit Arguments.
Unset Strict Implicit.
Unset Printing Implicit Defensive.
Import GRing.Theory Num.Theory.
Local Open Scope ring_scope.
Local Open Scope complex_scope.

Section Arith.
Variable K : fieldType.
Add Field Kf : (F_field K).
Hypothesis two0 : (2%:R : K) != 0.
Let two0' : (1 + 1 : K) <> 0. Proof. by apply/eqP. Qed.
Let four0 : (1 + 1) * (1 + 1) <> 0 :> K. Proof. by move/eqP; rewrite mulf_eq0 orbb (negPf two0). Qed.
Lemma arith_comm (i n : K) :
  ((i + 1) * (n + 1 - (i + 1)) / 4%:R - i * (n + 1 - i) / 4%:R) *+ 2 = 2%:R^-1 * (n + 1 - 1 - 2%:R * i).
Proof. by fieldm K. Qed.
Lemma arith_cas (i n : K) :
  ((i + 1) * (n + 1 - (i + 1)) / 4%:R + i * (n + 1 - i) / 4%:R) *+ 2 +
  (2%:R^-1 * (n + 1 - 1 - 2%:R * i)) * (2%:R^-1 * (n + 1 - 1 - 2%:R * i)) = n / 2%:R * (n / 2%:R + 1).
Proof. by fieldm K. Qed.
Lemma arith_six (t : K) : t * t = 3%:R -> [/\ t / 2%:R * (t / 2%:R) + 2%:R^-1 / 2%:R = 1,
  t / 2%:R * (t / 2%:R) - 2%:R^-1 / 2%:R = 2%:R^-1, t / 2%:R / 2%:R - 2%:R^-1 * (t / 2%:R) = 0 &
  - (t / 2%:R / 2%:R) - 2%:R^-1 * (t / 2%:R) = - (t / 2%:R)].
Proof.
by move=> h; split; [rewrite mulrACA h; fieldm K|rewrite mulrACA h; fieldm K|fieldm K|fieldm K].
Qed.
End Arith.

Section PropSpin.
Variable F : rcfType.
Local Notation C := F[i].

Definition comm n (A B : 'M[C]_n) : 'M[C]_n := A *m B - B *m A.

(* the defining relations of an angular momentum *)
Definition angular_momentum n (X Y Z : 'M[C]_n) (casimir : C) : Prop :=
  [/\ [/\ dagger X = X, dagger Y = Y & dagger Z = Z],
      [/\ comm X Y = 'i *: Z, comm Y Z = 'i *: X & comm Z X = 'i *: Y] &
      X *m X + Y *m Y + Z *m Z = casimir%:M].

Local Lemma ii : 'i * 'i = -1 :> C. Proof. by rewrite -expr2 sqr_i. Qed.

Section Ladder.
Variables (n : nat) (f : nat -> C).
Hypotheses (f0 : f 0%N = 0) (fn : f n = 0).
Let U := diag_up n f.
Let L := diag_down n f.

Lemma up_down : U *m L = \matrix_(i, j) if i == j then f i.+1 * f i.+1 else 0.
Proof.
apply/matrixP => i k; rewrite !mxE.
case: (ltnP i.+1 n) => [lt|ge].
  rewrite (bigD1 (Ordinal lt)) //= !mxE /= eqxx eqSS big1 ?addr0.
    by rewrite -val_eqE /=; case: eqP => [->|ne]; rewrite ?mulr0.
  by move=> j nj; rewrite !mxE (negPf (_ : j != i.+1 :> nat)) ?mul0r.
have E : i.+1 = n by apply/eqP; rewrite eqn_leq ge ltn_ord.
rewrite big1 => [|j _]; last first.
  by rewrite !mxE E ltn_eqF ?mul0r.
by rewrite E fn mulr0; case: eqP.
Qed.

Lemma down_up : L *m U = \matrix_(i, j) if i == j then f i * f i else 0.
Proof.
apply/matrixP => -[i li] [k lk]; rewrite !mxE -!val_eqE /=.
case: i li => [|i] li.
  rewrite big1 => [|j _]; last by rewrite !mxE /= mul0r.
  by rewrite f0 mulr0; case: eqP.
rewrite (bigD1 (Ordinal (ltnW li))) //= !mxE /= eqxx big1 ?addr0.
  by rewrite [k == _]eq_sym; case: eqP; rewrite ?mulr0.
move=> j nj; rewrite !mxE /= eqSS (negPf (_ : i != j :> nat)) ?mul0r //.
by rewrite eq_sym.
Qed.

Let Z := spin_z F n.
Lemma levels (N : C) (i : nat) : 2%:R^-1 * (N - 1 - 2%:R * i%:R) - 2%:R^-1 * (N - 1 - 2%:R * i.+1%:R) = 1.
Proof.
rewrite -mulrBr opprB addrC addrA subrK -mulrBr mulrA mulVf ?pnatr_eq0 // mul1r.
by rewrite -addn1 natrD addrC addrA addNr add0r.
Qed.

Lemma mulZ (A : 'M[C]_n) i j : (Z *m A) i j = Z i i * A i j.
Proof.
by rewrite mxE (bigD1 i) //= big1 ?addr0 // => k nk; rewrite mxE eq_sym (negPf nk) mul0r.
Qed.
Lemma mulAZ (A : 'M[C]_n) i j : (A *m Z) i j = A i j * Z j j.
Proof.
by rewrite mxE (bigD1 j) //= big1 ?addr0 // => k nk; rewrite mxE (negPf nk) mulr0.
Qed.

Lemma spin_zU : Z *m U - U *m Z = U.
Proof.
apply/matrixP => i k; rewrite !(mulZ, mulAZ, mxE) !eqxx.
case: eqP => [ek|]; last by rewrite mulr0 mul0r subr0.
by rewrite ek [X in _ - X]mulrC -mulrBl levels mul1r.
Qed.

Lemma spin_zL : Z *m L - L *m Z = - L.
Proof.
apply/matrixP => i k; rewrite !(mulZ, mulAZ, mxE) !eqxx.
case: eqP => [ek|]; last by rewrite mulr0 mul0r subr0 oppr0.
by rewrite ek [X in _ - X]mulrC -mulrBl -opprB levels mulN1r.
Qed.
End Ladder.


Lemma expand_comm (V : zmodType) (a b c e : V) : a + b - (c + e) - (e + b - (c + a)) = (a - e) *+ 2.
Proof.
rewrite opprB addrACA -opprD (AC (2*2) ((1*4)*(2*3))) [X in _ - X](AC (2*2) ((2*3)*(4*1))).
by rewrite opprD addrACA subrr addr0 mulr2n opprD addrACA.
Qed.
Lemma expand_cas (V : zmodType) (a b c e : V) : c + a + (e + b) - (b - a - (e - c)) = (a + e) *+ 2.
Proof.
by rewrite !opprB (AC ((2*2)*(2*2)) (((2*3)*(7*5))*((1*6)*(4*8)))) /= !subrr !addr0 mulr2n.
Qed.

(* the algebra of ladder operators *)
Lemma ladder n (U L Z : 'M[C]_n) (c : C) : dagger U = L -> dagger Z = Z ->
  Z *m U - U *m Z = U -> Z *m L - L *m Z = - L -> (U *m L - L *m U) *+ 2 = Z ->
  (U *m L + L *m U) *+ 2 + Z *m Z = c%:M ->
  angular_momentum (U + L) (- 'i *: U + 'i *: L) Z c.
Proof.
move=> dU dZ zU zL ul cas.
have dL : dagger L = U by rewrite -dU daggerK.
have -> : - 'i *: U + 'i *: L = 'i *: (L - U) by rewrite scalerBr scaleNr addrC.
split.
- split=> //; first by rewrite daggerD dU dL addrC.
  by rewrite daggerZ daggerD daggerN dL dU conjCi scaleNr -scalerN opprB.
- split.
  + rewrite /comm -scalemxAr -scalemxAl -scalerBr; congr (_ *: _); rewrite -ul.
    by rewrite mulmxBr mulmxBl mulmxDl !mulmxDr mulmxDl -(expand_comm _ (L *m L) (U *m U)).
  + rewrite /comm -scalemxAr -scalemxAl -scalerBr; congr (_ *: _).
    have lz : L *m Z - Z *m L = L by rewrite -opprB zL opprK.
    by rewrite mulmxBl mulmxBr opprB [Z *m U - _]addrC addrACA lz [- _ + _]addrC zU addrC.
  + rewrite /comm mulmxDr mulmxDl scalerA ii scaleN1r opprB opprD addrACA zU zL.
    by [].
- rewrite -cas; congr (_ + _).
  rewrite -scalemxAr -scalemxAl scalerA ii scaleN1r mulmxBr !mulmxBl mulmxDl !mulmxDr.
  exact: expand_cas.
Qed.

(* b_i^2 = i (d - i) / 4 *)
Lemma spin_diag2 n (i : nat) : (i <= n.+1)%N ->
  spin_diag (n%:R / 2%:R : F) i * spin_diag (n%:R / 2%:R) i = i%:R * (n.+1%:R - i%:R) / 4%:R.
Proof.
have E : (n%:R / 2%:R + 1) * 2%:R * i%:R - i%:R * (i%:R + 1) = i%:R * (n.+1%:R - i%:R) :> F.
  rewrite mulrDl mulfVK ?pnatr_eq0 // mul1r mulrC -mulrBr -natrD -(natrD _ i 1) addn2 addn1 -[n.+2]addn1 -[i.+1]addn1.
  by rewrite !natrD opprD addrACA subrr addr0.
move=> le; rewrite /spin_diag E mulrACA -invfM -natrM mulrC; congr (_ / _).
by rewrite -expr2 sqr_sqrtr // mulr_ge0 ?ler0n // subr_ge0 ler_nat.
Qed.

Theorem C44_spin_matrices n : let s : F := n%:R / 2%:R in
  angular_momentum (spin_x s n.+1) (spin_y s n.+1) (spin_z F n.+1) (s * (s + 1))%:C.
Proof.
move=> s; set f := fun i => (spin_diag s i)%:C.
have SR m : m.+1%:R = m%:R + 1 :> C by rewrite -addn1 natrD.
have f2 i : (i <= n.+1)%N -> f i * f i = i%:R * (n.+1%:R - i%:R) / 4%:R.
  move=> le; rewrite /f -(rmorphM [rmorphism of real_complex F]) spin_diag2 //.
  by rewrite !rmorphM /= fmorphV /= rmorphB !rmorph_nat.
have f0 i : (i <= n.+1)%N -> i%:R * (n.+1%:R - i%:R) = 0 :> C -> f i = 0.
  by move=> /f2 E z; apply/eqP; rewrite -[_ == 0]orbb -mulf_eq0 E z mul0r.
have d0 : f 0%N = 0 by apply: f0; rewrite ?mul0r.
have dn : f n.+1 = 0 by apply: f0; rewrite ?subrr ?mulr0.
apply: ladder.
- apply/matrixP => i j; rewrite !mxE; case: ifP => _; first by rewrite conjc_real.
  exact: rmorph0.
- apply/matrixP => i j; rewrite !mxE eq_sym; case: eqP => [->|_]; last exact: rmorph0.
  by rewrite rmorphM fmorphV !rmorphB rmorphM !rmorph_nat rmorph1.
- exact: spin_zU.
- exact: spin_zL.
- rewrite up_down // down_up //; apply/matrixP => i j; rewrite !mxE.
  case: eqP => [_|_]; last by rewrite subrr addr0.
  rewrite -mulr2n -/(f i.+1) -/(f i) !f2 ?ltn_ord //; last exact: ltnW.
  by rewrite (SR i) (SR n) arith_comm // pnatr_eq0.
- rewrite up_down // down_up //; apply/matrixP => i j; rewrite !mxE (bigD1 i) //= big1 ?addr0; last first.
    by move=> k nk; rewrite !mxE eq_sym (negPf nk) mul0r.
  rewrite !mxE eqxx; case: eqP => [_|_]; last by rewrite mulr0 !addr0.
  rewrite -mulr2n -/(f i.+1) -/(f i) !f2 ?ltn_ord //; last exact: ltnW.
  rewrite (SR i) (SR n) arith_cas ?pnatr_eq0 //.
  by rewrite rmorphM rmorphD rmorphM /= fmorphV !rmorph_nat rmorph1.
Qed.

End PropSpin.

Section Momenta.
Variable F : rcfType.
Local Notation C := F[i].
Local Notation toC := (map_mx (real_complex F)).

Lemma herm n (A : 'M[F]_n) : A^T = - A -> dagger ('i *: toC A) = 'i *: toC A.
Proof.
move=> tA; rewrite /dagger linearZ /= map_trmx tA map_mxN mxconjZ mxconjN conjCi scaleNr -scalerN opprK.
by congr (_ *: _); apply/matrixP => i j; rewrite !mxE conjc_real.
Qed.

Lemma momentum_of_rotation n (X Y Z : 'M[F]_n) c : rotation_algebra X Y Z c ->
  angular_momentum ('i *: toC X) ('i *: toC Y) ('i *: toC Z) c%:R.
Proof.
move=> [[tX tY tZ] [xy yz zx] cas].
have com (A B D : 'M[F]_n) : A *m B - B *m A = D -> comm ('i *: toC A) ('i *: toC B) = 'i *: ('i *: toC D).
  move=> <-; rewrite /comm -!scalemxAl -!scalemxAr !scalerA -scalerBr -!map_mxM -map_mxB.
  by [].
split; first by split; apply: herm.
- by split; apply: com.
rewrite -!scalemxAl -!scalemxAr !scalerA ii !scaleN1r -!map_mxM -!opprD -!map_mxD -map_mxN cas map_scalar_mx.
by rewrite /= rmorph_nat.
Qed.

Lemma L1E a : L1 F a = 'i *: toC (list1 F a).
Proof. by congr (_ *: _); apply/matrixP => i j; rewrite !mxE. Qed.
Lemma LDE a : LD F a = 'i *: toC (list2 (Num.sqrt (3%:R : F)) a).
Proof. by congr (_ *: _); apply/matrixP => i j; rewrite !mxE. Qed.

Theorem C45_momenta :
  angular_momentum (L1 F 0) (L1 F 1) (L1 F 2) 2%:R /\ angular_momentum (LD F 0) (LD F 1) (LD F 2) 6%:R.
Proof.
split; first by rewrite !L1E; apply: momentum_of_rotation; apply: list1_algebra.
rewrite !LDE; apply: momentum_of_rotation; apply: list2_algebra.
by rewrite -expr2 sqr_sqrtr ?ler0n.
Qed.

Theorem C45_imaginary (a : 'I_3) : mxconj (L1 F a) = - L1 F a /\ mxconj (LD F a) = - LD F a.
Proof.
have re n (A : 'M[F]_n) : mxconj ('i *: toC A) = - ('i *: toC A).
  rewrite mxconjZ conjCi scaleNr; congr (- (_ *: _)).
  by apply/matrixP => i j; rewrite !mxE conjc_real.
by split; rewrite ?L1E ?LDE re.
Qed.

(* exp(theta J) = cos(theta) + sin(theta) J for J^2 = -1, and -i L = J *)
Theorem C45_plane (c s : F) :
  [/\ dagger (L2 F) = L2 F, (- 'i *: L2 F) *m (- 'i *: L2 F) = - 1%:M &
      toC (rotation2 c s) = c%:C%:M + s%:C *: (- 'i *: L2 F)].
Proof.
have E : - 'i *: L2 F = rows_mx 2 [:: [:: 0; -1]; [:: 1; 0]].
  by rewrite /L2 scalerA mulNr ii opprK scale1r.
split.
- have -> : L2 F = 'i *: toC (list_mx 2 [:: [:: 0; -1]; [:: 1; 0]]).
    by congr (_ *: _); apply/matrixP => i j; rewrite !mxE.
  apply: herm; apply/matrixP => i j; rewrite !mxE.
  by case: i => [[|[|//]] ?]; case: j => [[|[|//]] ?] /=; rewrite ?oppr0 ?opprK.
- rewrite E; apply/matrixP => i j; rewrite !mxE !big_ord_recl big_ord0 !mxE /=.
  case: i => [[|[|//]] ?]; case: j => [[|[|//]] ?] /=.
  all: rewrite ?rmorph0 ?rmorphN ?rmorph1 ?mulr0 ?mul0r ?addr0 ?add0r ?mulr1 ?mul1r ?oppr0 //.
- rewrite E; apply/matrixP => i j; rewrite !mxE.
  case: i => [[|[|//]] ?]; case: j => [[|[|//]] ?] /=.
  all: by rewrite ?rmorph0 ?rmorphN ?rmorph1 ?mulr0 ?addr0 ?add0r ?mulr1 ?mulrN1 ?rmorphN.
Qed.

(* C86: the assertion in spin_matrices never fails *)
Theorem C86_rejects_refuted (rint trunc : F -> int) (s : F) :
  (forall z, trunc z%:~R = z) -> rint (2%:R * s + 1) = 2 -> 0 <= s -> s != 2%:R^-1 ->
  spin_dim rint trunc s = Ok 2%N /\ comm (spin_x s 2) (spin_y s 2) <> 'i *: spin_z F 2.
Proof.
move=> tz r2 s0 sn; split; first by rewrite /spin_dim r2 tz eqxx.
move=> /matrixP /(_ 0 0); rewrite !mxE !big_ord_recl !big_ord0 !mxE /=.
rewrite !(mulr0, addr0, add0r, subr0) mulrCA !mulNr opprK -!mulrA -mulrDr.
have i0 : 'i != 0 :> C by rewrite eq_complex /= oner_eq0 andbF.
move=> /(mulfI i0).
have d2 : spin_diag s 1 * spin_diag s 1 = s / 2%:R.
  have E : (s + 1) * 2%:R * 1 - 1 * (1 + 1) = s * 2%:R by rewrite mulr1 mul1r mulrDl mul1r addrK.
  rewrite /spin_diag E mulrACA -[Num.sqrt _ * _]expr2 sqr_sqrtr ?mulr_ge0 ?ler0n //.
  by rewrite [s * _]mulrC mulrA mulfVK ?pnatr_eq0 // mulrC.
have -> : 2%:R - 1 = 1 :> C by rewrite -[2%N]/(1 + 1)%N natrD addrK.
rewrite mulr1 -(rmorphM [rmorphism of real_complex F]) d2 -(rmorphD [rmorphism of real_complex F]) /= -mulrDr -mulr2n.
rewrite -[_ *+ 2]mulr_natr mulVf ?pnatr_eq0 // mulr1 => /eqP.
have -> : 2%:R^-1 = (2%:R^-1)%:C :> C by rewrite fmorphV rmorph_nat.
by rewrite (inj_eq (fmorph_inj [rmorphism of real_complex F])) (negPf sn).
Qed.

(* C47 *)
Section Rotate.
Variables (n : nat) (h : C).
Hypothesis hu : h * conjc h = 1.
Let h0 : h != 0. Proof. by apply/eqP => E; move: hu => /eqP; rewrite E mul0r eq_sym oner_eq0. Qed.
Let ch : conjc h = h^-1. Proof. by apply: (mulfI h0); rewrite hu divff. Qed.
Let U := spin_rotation_z n h.
Let e (i : nat) : C := h ^ (n%:Z - 1 - 2 * i%:Z).

Lemma conj_e i : conjc (e i) * e i = 1.
Proof. by rewrite /e fmorphXz /= ch -exprzMl ?unitfE ?invr_eq0 // mulVf // exp1rz. Qed.

Lemma conj_sandwich (A : 'M[C]_n) i j : (dagger U *m A *m U) i j = conjc (e i) * A i j * e j.
Proof.
rewrite mxE (bigD1 j) //= big1 ?addr0 => [|k nk]; last by rewrite [U _ _]mxE (negPf nk) mulr0.
rewrite [U _ _]mxE eqxx; congr (_ * _).
rewrite mxE (bigD1 i) //= big1 ?addr0 => [|k nk]; last by rewrite !mxE (negPf nk) rmorph0 mul0r.
by rewrite !mxE eqxx.
Qed.

Lemma spin_rotation_unitary : unitarymx U.
Proof.
have E : dagger U *m U = 1%:M.
  apply/matrixP => i j; rewrite -[dagger U]mulmx1 conj_sandwich !mxE.
  by case: eqP => [->|_]; rewrite ?mulr0 ?mul0r // mulr1 conj_e.
by split=> //; apply: mulmx1C.
Qed.

Lemma rotate_up f : dagger U *m diag_up n f *m U = conjc (h * h) *: diag_up n f.
Proof.
apply/matrixP => i j; rewrite conj_sandwich !mxE; case: eqP => [ej|_]; last by rewrite !mulr0 mul0r.
rewrite mulrAC; congr (_ * _).
have -> : e j = e i * (h * h)^-1.
  rewrite /e; have -> : n%:Z - 1 - 2 * j%:Z = n%:Z - 1 - 2 * i%:Z + - 2%:Z by rewrite ej; lia.
  by rewrite expfzDr // -expr2 -exprnN.
by rewrite mulrA conj_e mul1r rmorphM /= ch invfM.
Qed.
Lemma rotate_down f : dagger U *m diag_down n f *m U = (h * h) *: diag_down n f.
Proof.
apply/matrixP => i j; rewrite conj_sandwich !mxE; case: eqP => [ei|_]; last by rewrite !mulr0 mul0r.
rewrite mulrAC; congr (_ * _).
have -> : e j = e i * (h * h).
  rewrite /e; have -> : n%:Z - 1 - 2 * j%:Z = n%:Z - 1 - 2 * i%:Z + 2%:Z by rewrite ei; lia.
  by rewrite expfzDr // -expr2.
by rewrite [X in _ * X]mulrA mulrA [X in X * _]mulrA conj_e mul1r.
Qed.

Variables (c sn : F) (s : F).
Hypothesis hh : h * h = c%:C - 'i * sn%:C.

(* exp(i theta S_z) (S_x, S_y, S_z) exp(-i theta S_z) *)
Lemma rotate_spin : [/\
  dagger U *m spin_x s n *m U = c%:C *: spin_x s n - sn%:C *: spin_y s n,
  dagger U *m spin_y s n *m U = sn%:C *: spin_x s n + c%:C *: spin_y s n &
  dagger U *m spin_z F n *m U = spin_z F n].
Proof.
have ch2 : conjc (h * h) = c%:C + 'i * sn%:C.
  by rewrite hh; simpc.
rewrite /spin_x /spin_y; set f := fun i => _; split.
- rewrite mulmxDr mulmxDl rotate_up rotate_down ch2 hh !scalerDr !scalerA !scalerDl opprD addrACA.
  by rewrite !mulrN !scaleNr opprK [sn%:C * _]mulrC.
- rewrite mulmxDr mulmxDl -!scalemxAr -!scalemxAl rotate_up rotate_down ch2 hh !scalerDr !scalerA.
  rewrite [X in _ = X]addrACA -!scalerDl mulrDr mulrBr !mulNr !mulrA ii !mulN1r !opprK.
  by rewrite !mulrN ![_ * 'i]mulrC; congr (_ *: _ + _ *: _); rewrite addrC.
- apply/matrixP => i j; rewrite conj_sandwich mxE.
  by case: eqP => [->|_]; rewrite ?mulr0 ?mul0r // mulrAC conj_e mul1r.
Qed.
End Rotate.

(* the unitary part rotates the spin like the rotation R of the plane *)
Definition covariant n (g : pge F 2 n) (s : F) : Prop :=
  exists2 U, pU g = Some U &
    let S (i : 'I_2) := if i == 0 then spin_x s n.+1 else spin_y s n.+1 in
    forall i, dagger U *m S i *m U = \sum_j (pR g i j)%:C *: S j.

Theorem C47_rotation n (h : C) (c sn s : F) : h * conjc h = 1 -> h * h = c%:C - 'i * sn%:C ->
  unitarymx (spin_rotation_z n.+1 h) /\
  covariant (Pge (rotation2 c sn) false false (Some (spin_rotation_z n.+1 h)) false) s.
Proof.
move=> hu hh; split; first exact: spin_rotation_unitary.
eexists; first by [].
have [x y _] := rotate_spin n.+1 hu s hh.
move=> V i; rewrite !big_ord_recl big_ord0 addr0 !mxE {}/V; case: i => [[|[|//]] ?] /=.
  by rewrite x rmorphN scaleNr.
by rewrite y.
Qed.

Let s33 : s3 F * s3 F = 3%:R. Proof. by rewrite -expr2 sqr_sqrtr ?ler0n. Qed.
Let two0 : 2%:R != 0 :> F. Proof. by rewrite pnatr_eq0. Qed.
Lemma h6_unit : h6 F * conjc (h6 F) = 1.
Proof. by have [a1 _ a3 _] := arith_six two0 s33; rewrite /h6; simpc; rewrite a1 a3. Qed.
Lemma h6_sq : h6 F * h6 F = (2%:R^-1)%:C - 'i * (s3 F / 2%:R)%:C.
Proof. by have [_ a2 _ a4] := arith_six two0 s33; rewrite /h6; simpc; rewrite a2 a4. Qed.

Theorem C47_float n s : covariant (hexagonal_C6 F false n) s.
Proof. exact: (C47_rotation n s h6_unit h6_sq).2. Qed.

(* for every spin except 0 *)
Theorem C47_sympy_refuted n : let s : F := n.+1%:R / 2%:R in ~ covariant (hexagonal_C6 F true n.+1) s.
Proof.
move=> s [_ [<-] cov].
have [x _ _] := rotate_spin n.+2 h6_unit s h6_sq.
have := cov 0; rewrite /= x !big_ord_recl big_ord0 addr0 !mxE /= => /addrI E.
have a0 : (s3 F / 2%:R)%:C != 0 :> C.
  rewrite -(rmorph0 [rmorphism of real_complex F]) (inj_eq (fmorph_inj _)) mulf_neq0 ?invr_eq0 //.
  by apply/eqP => z; move: s33 => /eqP; rewrite z mul0r eq_sym pnatr_eq0.
have y0 : spin_y s n.+2 = 0.
  move/eqP: E; rewrite eq_sym -addr_eq0 -mulr2n -scaler_nat !scalerA scaler_eq0 mulf_eq0 pnatr_eq0 (negPf a0) /=.
  by move/eqP.
have i0 : 'i != 0 :> C by rewrite eq_complex /= oner_eq0 andbF.
have [_ [xy yz zx] cas] := C44_spin_matrices F n.+1; move: xy yz zx cas.
rewrite -/s y0 /comm mulmx0 !mul0mx !mulmx0 subrr => /eqP; rewrite eq_sym scaler_eq0 (negPf i0) /= => /eqP ->.
move=> /eqP; rewrite eq_sym scaler_eq0 (negPf i0) /= => /eqP -> _.
rewrite !mul0mx !addr0 => /matrixP /(_ 0 0) /eqP; rewrite !mxE eqxx mulr1n eq_sym.
rewrite -[X in _ == X](rmorph0 [rmorphism of real_complex F]) (inj_eq (fmorph_inj _)).
have s0 : 0 < s by rewrite divr_gt0 ?ltr0n.
by rewrite mulf_eq0 !(negPf (lt0r_neq0 _)) ?addr_gt0 ?ltr01.
Qed.
End Momenta.

(* spin 1/2: the Pauli matrices *)
Example C44_half (F : rcfType) (s := 2%:R^-1 : F) : spin_z F 2 = \matrix_(i, j) (if i == j then if i == 0 then 2%:R^-1 else - 2%:R^-1 else 0).
Proof.
apply/matrixP => i j; rewrite !mxE; case: eqP => // _.
have E : 2%:R - 1 = 1 :> F[i] by rewrite -[2%N]/(1 + 1)%N natrD addrK.
case: i => [[|[|//]] ?] /=; rewrite E ?mulr0 ?subr0 ?mulr1 //.
by rewrite -opprB E mulrN1.
Qed.

Print Assumptions C44_spin_matrices.
Print Assumptions C45_momenta.
Print Assumptions C45_plane.
Print Assumptions C47_rotation.
Print Assumptions C47_sympy_refuted.
Print Assumptions C86_rejects_refuted.
