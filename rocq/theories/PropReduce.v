(* C98: _reduce_hamiltonian finds all unitary symmetries and the irreducible blocks *)
From mathcomp Require Import all_ssreflect all_algebra.
From mathcomp Require Import complex.
From Verif Require Import Prelude PGE PGEProofs LinSpan NullSpec Star Nullspace Tolerance PropTol Linalg MatBasisProofs PropLinalg Lie PropLie SymBlocks PropBlocks SimultDiag PropSimult PropConserved StarAlg Sun PropSun.

Set Implicit Arguments.
Unset Strict Implicit.
Unset Printing Implicit Defensive.
Import Order.TTheory GRing.Theory Num.Theory.
Local Open Scope ring_scope.

Arguments groups {F N} S a.
Section Spec.
Variable F : rcfType.
Local Notation C := F[i].
(* X commutes with all matrices of the family *)
Definition commutes N (H : seq 'M[C]_N) (X : 'M[C]_N) : Prop := forall h, List.In h H -> X *m h = h *m X.
(* the family together with its adjoints *)
Definition adjoint N (H : seq 'M[C]_N) : seq 'M[C]_N := H ++ [seq dag h | h <- H].
(* The groups of columns of all arrays together are an orthonormal basis, and the matrices which commute with the
   family are exactly the sums of einsum('aij,ab,bkj->ik', P_i, L_i, conj(P_i)). *)
Definition reduced N (H : seq 'M[C]_N) (rs : seq (stack F N)) : Prop :=
  [/\ forall S, List.In S rs -> [/\ (0 < size (tagged S))%N, (0 < tag S)%N & orthoE (groups S)],
      apart (fun S S' => forall a b, dag (groups S a) *m groups S' b = 0) rs,
      \sum_(S <- rs) \sum_a groups S a *m dag (groups S a) = 1%:M &
      forall X, commutes H X <-> exists L : forall S : stack F N, 'M[C]_(size (tagged S)), X = \sum_(S <- rs) tens (groups S) (L S)].
End Spec.

Section Commutant.
Variable F : rcfType.
Local Notation C := F[i].
Local Notation rc := [rmorphism of real_complex F].
Local Notation idf := [rmorphism of idfun].
Section One.
Variables (N : nat) (H : seq 'M[C]_N).
Hypotheses (N0 : (0 < N)%N) (hH : forall h, List.In h H -> List.In (dag h) H).

Lemma comm1 : commutes H 1%:M. Proof. by move=> h _; rewrite mul1mx mulmx1. Qed.
Lemma commM X Y : commutes H X -> commutes H Y -> commutes H (X *m Y).
Proof. by move=> cX cY h hin; rewrite -mulmxA cY // !mulmxA cX. Qed.
Lemma commD X Y : commutes H X -> commutes H Y -> commutes H (X + Y).
Proof. by move=> cX cY h hin; rewrite mulmxDl mulmxDr cX ?cY. Qed.
Lemma commZ c X : commutes H X -> commutes H (c *: X).
Proof. by move=> cX h hin; rewrite -scalemxAl -scalemxAr cX. Qed.
Lemma commN X : commutes H X -> commutes H (- X).
Proof. by move=> cX; rewrite -scaleN1r; apply: commZ. Qed.
Lemma comm_dag X : commutes H X -> commutes H (dag X).
Proof. by move=> cX h /hH hin; rewrite -[h]dagK -!dag_mul cX. Qed.

(* the traceless Hermitian symmetries and the traceless ones *)
Variable gens : seq 'M[C]_N.
Hypothesis B : is_basis rc gens (fun X => [/\ dag X = X, \tr X = 0 & commutes H X]).
Lemma herm_parts (X : 'M[C]_N) : exists h k, [/\ dag h = h, dag k = k, X = h + ('i)%C *: k &
  [/\ (\tr X = 0 -> \tr h = 0 /\ \tr k = 0) & (commutes H X -> commutes H h /\ commutes H k)]].
Proof.
have two : (2%:R : C) != 0 by rewrite pnatr_eq0.
have c2 : conjc (2%:R^-1 : C) = 2%:R^-1 by rewrite (fmorphV (conjc_rmorphism F)) (rmorph_nat (conjc_rmorphism F)).
have ci : conjc ('i%C : C) = - 'i%C by simpc.
have ii : ('i%C : C) * 'i%C = -1 by rewrite -expr2 sqr_i.
exists (2%:R^-1 *: (X + dag X)), (- ('i%C * 2%:R^-1) *: (X - dag X)); split.
- by rewrite dagZ c2 dagD dagK addrC.
- rewrite dagZ; have -> : dag (X - dag X) = - (X - dag X) by rewrite dagB dagK opprB.
  have -> : conjc (- ('i%C * 2%:R^-1) : C) = 'i%C * 2%:R^-1.
    have cm (x y : C) : conjc (- (x * y)) = - (conjc x * conjc y) by rewrite (rmorphN (conjc_rmorphism F)) (rmorphM (conjc_rmorphism F)).
    by rewrite cm ci c2 mulNr opprK.
  by rewrite scalerN scaleNr.
- rewrite scalerA mulrN mulrA ii mulN1r opprK -scalerDr addrACA subrr addr0 -mulr2n -scaler_nat scalerA mulVf ?scale1r //.
split=> [t|c].
  have td : \tr (dag X) = 0.
    have -> : \tr (dag X) = conjc (\tr X); last by rewrite t conjc0.
    by rewrite /mxtrace (rmorph_sum (conjc_rmorphism F)); apply: eq_bigr => i _; rewrite dagE.
  by rewrite !mxtraceZ raddfD raddfB /= t td subr0 addr0 !mulr0.
have cd := comm_dag c; split; apply: commZ; apply: commD => //; exact: commN.
Qed.
Lemma cbasis : is_basis idf gens (fun X => \tr X = 0 /\ commutes H X).
Proof.
apply: complexify B _ _ => [X|h k [dh _ _] [dk _ _] e].
  split=> [[t c]|[h [_ th ch] [k [_ tk ck] ->]]].
    have [h [k [dh dk e [/(_ t)[th tk] /(_ c)[ch ck]]]]] := herm_parts X.
    by rewrite e; exists h => //; exists k.
  by rewrite raddfD /= mxtraceZ th tk mulr0 addr0; split=> //; apply: commD => //; apply: commZ.
have ci : conjc ('i%C : C) = - 'i%C by simpc.
have := congr1 (@dag F N N) e; rewrite dagD dagZ dh dk ci scaleNr dag0 => e'.
have : h + h = 0 by rewrite -[RHS](addr0 0) -{1}e -[X in _ = _ + X]e' addrACA subrr addr0.
by rewrite -mulr2n -scaler_nat => /eqP; rewrite scaler_eq0 pnatr_eq0 /= => /eqP.
Qed.
Lemma traceless (X : 'M[C]_N) : exists c, \tr (X - c%:M) = 0.
Proof.
exists (\tr X / N%:R); rewrite raddfB /= mxtrace_scalar -mulr_natr -mulrA mulVf ?mulr1 ?subrr //.
by rewrite pnatr_eq0 -lt0n.
Qed.
Lemma comm_scalar c : commutes H c%:M.
Proof. by rewrite -scalemx1; apply: commZ comm1. Qed.
Lemma comm_span X : commutes H X <-> exists c, exists2 Y, span idf gens Y & X = c%:M + Y.
Proof.
split=> [cX|[c [Y /(cbasis.2 _).2 [_ cY] ->]]]; last by apply: commD => //; apply: comm_scalar.
have [c tc] := traceless X; exists c; exists (X - c%:M); last by rewrite addrC subrK.
by apply/cbasis.2; split=> //; apply: commD => //; apply/commN/comm_scalar.
Qed.
Lemma scalar_case X : gens = [::] -> commutes H X -> exists c, X = c%:M.
Proof. by move=> g0 /comm_span[c [Y [f ->] ->]]; exists c; rewrite g0 comb_nil addr0. Qed.
Lemma comm_alg X : StarAlg.in_alg (1%:M :: gens) X <-> commutes H X.
Proof.
rewrite comm_span; split=> [[f ->]|[c [Y [f ->] ->]]].
  exists (f 0%N), (comb idf gens (fun j => f j.+1)); first by eexists.
  by rewrite comb_cons /= scalemx1.
by exists (fun j => if j is j'.+1 then f j' else c); rewrite comb_cons /= scalemx1.
Qed.
End One.
End Commutant.

Section Spaces.
Variable F : rcfType.
Local Notation C := F[i].
Local Notation rc := [rmorphism of real_complex F].
Local Notation idf := [rmorphism of idfun].
Variables (N : nat) (H : seq 'M[C]_N).
Hypotheses (N0 : (0 < N)%N) (hH : forall h, List.In h H -> List.In (dag h) H).
(* the centre of the commutant *)
Definition in_centre (Z : 'M[C]_N) : Prop := commutes H Z /\ forall X, commutes H X -> Z *m X = X *m Z.
Variable gc : seq 'M[C]_N.
Hypothesis gcP : forall Z, in_centre Z <-> exists c, exists2 Y, span idf gc Y & Z = c%:M + Y.
Variable Ps : seq (rect F N).
Hypothesis D : is_diag gc Ps.
Local Notation mat P := (tagged P : 'M[C]_(N, tag P)).

Lemma gc_centre G : List.In G gc -> in_centre G.
Proof. by move=> Gin; apply/gcP; exists 0; exists G; [exact: span_mem|rewrite raddf0 add0r]. Qed.
Lemma centre_dag Z : in_centre Z -> in_centre (dag Z).
Proof.
move=> [cZ zZ]; split=> [|X cX]; first exact: comm_dag.
by rewrite -[X in LHS]dagK -dag_mul -zZ ?dag_mul ?dagK //; apply: comm_dag.
Qed.
Lemma centre_scalar Z P : List.In P Ps -> in_centre Z -> exists c, Z *m mat P = c *: mat P.
Proof.
move=> Pin /gcP[c [Y [f ->] ->]]; have [_ _ eg _] := D.
have: exists k, comb idf gc f *m mat P = k *: mat P.
  elim: (gc) eg f => [|G s IH] eg f; first by exists 0; rewrite comb_nil mul0mx scale0r.
  have [k ek] := eg P G Pin (or_introl erefl).
  have [|k' ek'] := IH _ (fun j => f j.+1); first by move=> P' G' h1 h2; apply: eg => //; right.
  by exists (f 0%N * k + k'); rewrite comb_cons mulmxDl ek' -scalemxAl ek scalerA scalerDl.
by move=> [k ek]; exists (c + k); rewrite mulmxDl mul_scalar_mx ek scalerDl.
Qed.
Lemma centre_left Z P c : List.In P Ps -> in_centre Z -> Z *m mat P = c *: mat P -> dag (mat P) *m Z = c *: dag (mat P).
Proof.
move=> Pin Zc e; have [k ek] := centre_scalar Pin (centre_dag Zc); have [/(_ P Pin)[p0 PP] _ _ _] := D.
have e1 : dag (mat P) *m Z = conjc k *: dag (mat P) by rewrite -[Z]dagK -dag_mul ek dagZ.
rewrite e1; congr (_ *: _); have : dag (mat P) *m Z *m mat P = c%:M by rewrite -mulmxA e -scalemxAr PP scalemx1.
rewrite e1 -scalemxAl PP scalemx1 => /matrixP /(_ (Ordinal p0) (Ordinal p0)); by rewrite !mxE eqxx !mulr1n.
Qed.
Lemma off_diag X P P' : (forall G, List.In G gc -> X *m G = G *m X) -> List.In P Ps -> List.In P' Ps ->
  separated gc P P' \/ separated gc P' P -> dag (mat P') *m X *m mat P = 0.
Proof.
move=> cX Pin P'in sp.
have [G Gin [c [c' [cc eP eP']]]] : exists2 G, List.In G gc & exists c c', [/\ c != c', G *m mat P = c *: mat P & G *m mat P' = c' *: mat P'].
  case: sp => [[G Gin [c [c' [h1 h2 h3]]]]|[G Gin [c [c' [h1 h2 h3]]]]]; exists G => //; first by exists c, c'.
  by exists c', c; rewrite eq_sym.
have l := centre_left P'in (gc_centre Gin) eP'.
have : c *: (dag (mat P') *m X *m mat P) = c' *: (dag (mat P') *m X *m mat P).
  rewrite scalemxAr -eP; have -> : dag (mat P') *m X *m (G *m mat P) = dag (mat P') *m (X *m G) *m mat P by rewrite !mulmxA.
  by rewrite cX // !mulmxA l -!scalemxAl.
move/eqP; rewrite -subr_eq0 -scalerBl scaler_eq0 subr_eq0 (negPf cc) /= => /eqP //.
Qed.
Lemma space_inv X P : (forall G, List.In G gc -> X *m G = G *m X) -> List.In P Ps ->
  X *m mat P = mat P *m (dag (mat P) *m X *m mat P).
Proof.
move=> cX Pin; have [_ sm _ ap] := D; have [s [t e]] := List.in_split _ _ Pin; have {}e : Ps = (s ++ P :: t)%SEQ := e.
rewrite -[LHS]mul1mx -sm e big_cat big_cons /=.
have aps : (forall Q, List.In Q s -> separated gc Q P) /\ (forall Q, List.In Q t -> separated gc P Q).
  move: ap; rewrite e; elim: (s) => [|Q s' IH] /=; first by case.
  case=> h /IH[h1 h2]; split=> // Q' [<-|//]; last exact: h1.
  by apply: h; apply/In_cat; right; left.
have z Q : List.In Q s \/ List.In Q t -> mat Q *m dag (mat Q) *m (X *m mat P) = 0.
  move=> Qin; rewrite -mulmxA [dag _ *m _]mulmxA off_diag ?mulmx0 //.
    by rewrite e; apply/In_cat; case: Qin => h; [left|right; right].
  by case: Qin => h; [right; apply: aps.1|left; apply: aps.2].
have zs (u : seq (rect F N)) : (forall Q, List.In Q u -> mat Q *m dag (mat Q) *m (X *m mat P) = 0) ->
  (\sum_(Q <- u) mat Q *m dag (mat Q)) *m (X *m mat P) = 0.
  elim: u => [|Q u IH] h; first by rewrite big_nil mul0mx.
  by rewrite big_cons mulmxDl h ?IH ?addr0 //; [move=> Q' Q'u; apply: h; right|left].
rewrite !mulmxDl (zs s) ?(zs t) ?addr0 ?add0r ?mulmxA // => Q Qin; apply: z; by [left|right].
Qed.

(* one of the subspaces *)
Variable P : rect F N.
Hypothesis Pin : List.In P Ps.
Local Notation p := (mat P).
Local Notation Hr := [seq dag p *m h *m p | h <- H].
Let PP : dag p *m p = 1%:M. Proof. by have [/(_ P Pin)[]] := D. Qed.
Let p0 : (0 < tag P)%N. Proof. by have [/(_ P Pin)[]] := D. Qed.
Lemma Hr_herm h : List.In h Hr -> List.In (dag h) Hr.
Proof. by case/In_map_iff=> k /hH kin ->; rewrite !dag_mul dagK mulmxA; apply/In_map_iff; exists (dag k). Qed.
Lemma inv_right X : commutes H X \/ List.In X H -> X *m p = p *m (dag p *m X *m p).
Proof.
move=> cX; apply: space_inv Pin => G /gc_centre[cG zG].
by case: cX => [cX|Xin]; [rewrite zG|rewrite cG].
Qed.
Lemma inv_left X : commutes H X \/ List.In X H -> dag p *m X = (dag p *m X *m p) *m dag p.
Proof.
move=> cX; have /inv_right e : commutes H (dag X) \/ List.In (dag X) H.
  by case: cX => [cX|Xin]; [left; apply: comm_dag|right; apply: hH].
by rewrite -[LHS]dagK dag_mul dagK e !dag_mul !dagK !mulmxA.
Qed.
Lemma comm_up Y : commutes Hr Y -> commutes H (p *m Y *m dag p).
Proof.
move=> cY h hin; have l := inv_left (or_intror hin); have r := inv_right (or_intror hin).
have e : Y *m (dag p *m h *m p) = dag p *m h *m p *m Y by apply: cY; apply/In_map_iff; exists h.
have -> : p *m Y *m dag p *m h = p *m (Y *m (dag p *m h *m p)) *m dag p by rewrite -mulmxA {1}l !mulmxA.
have -> : h *m (p *m Y *m dag p) = p *m (dag p *m h *m p *m Y) *m dag p by rewrite !mulmxA r !mulmxA.
by rewrite e.
Qed.
Lemma comm_down X : commutes H X -> commutes Hr (dag p *m X *m p).
Proof.
move=> cX _ /In_map_iff[h hin ->]; have r := inv_right (or_intror hin); have r' := inv_right (or_introl cX).
have -> : dag p *m X *m p *m (dag p *m h *m p) = dag p *m (X *m h) *m p.
  by rewrite -mulmxA -[LHS]mulmxA -r !mulmxA.
by rewrite cX // -[RHS]mulmxA -[RHS]mulmxA -r' !mulmxA.
Qed.
Lemma centre_trivial Z : commutes Hr Z -> (forall Y, commutes Hr Y -> Z *m Y = Y *m Z) -> exists c, Z = c%:M.
Proof.
move=> cZ zZ; have cW := comm_up cZ.
have [|c e] := @centre_scalar (p *m Z *m dag p) P Pin.
  split=> // X cX; have l := inv_left (or_introl cX); have r := inv_right (or_introl cX).
  have -> : p *m Z *m dag p *m X = p *m (Z *m (dag p *m X *m p)) *m dag p by rewrite -mulmxA {1}l !mulmxA.
  rewrite (zZ _ (comm_down cX)).
  have -> : X *m (p *m Z *m dag p) = (X *m p) *m Z *m dag p by rewrite !mulmxA.
  by rewrite r !mulmxA.
exists c; have <- : dag p *m (p *m Z *m dag p *m p) = c%:M by rewrite e -scalemxAr PP scalemx1.
have -> : dag p *m (p *m Z *m dag p *m p) = (dag p *m p) *m Z *m (dag p *m p) by rewrite !mulmxA.
by rewrite PP mul1mx mulmx1.
Qed.
End Spaces.

Lemma eq_sumIn (T : Type) (V : zmodType) (s : seq T) (f g : T -> V) : (forall x, List.In x s -> f x = g x) -> \sum_(x <- s) f x = \sum_(x <- s) g x.
Proof.
elim: s => [|x s IH] h; first by rewrite !big_nil.
by rewrite !big_cons h ?IH //; [move=> y ys; apply: h; right|left].
Qed.
Lemma sum_zero (T : Type) (V : zmodType) (s : seq T) (f : T -> V) : (forall x, List.In x s -> f x = 0) -> \sum_(x <- s) f x = 0.
Proof. by move=> h; rewrite (eq_sumIn (g := fun=> 0)) // big1. Qed.
Section Lift.
Variable F : rcfType.
Local Notation C := F[i].
Local Notation rc := [rmorphism of real_complex F].
Local Notation idf := [rmorphism of idfun].
Lemma tens_lift N m d d' n (p : 'M[C]_(N, m)) (E : 'I_d -> 'M[C]_(m, n)) (E' : 'I_d' -> 'M[C]_(N, n)) (e : d' = d) :
  dag p *m p = 1%:M -> (forall a, E' a = p *m E (cast_ord e a)) -> orthoE E -> completeE E ->
  [/\ orthoE E', \sum_a E' a *m dag (E' a) = p *m dag p & forall X, (exists L, X = tens E' L) <-> exists L, X = p *m tens E L *m dag p].
Proof.
move=> pp h oE cE; subst d'; have {}h a : E' a = p *m E a by rewrite h cast_ord_id.
have o' : orthoE E'.
  by move=> a b; rewrite !h dag_mul -mulmxA [dag p *m _]mulmxA pp mul1mx oE.
split=> // [|X].
  rewrite (eq_bigr (fun a => p *m (E a *m dag (E a)) *m dag p)) => [|a _]; last by rewrite h dag_mul !mulmxA.
  by rewrite -mulmx_suml -mulmx_sumr cE mulmx1.
have tE L : tens E' L = p *m tens E L *m dag p.
  rewrite /tens mulmx_sumr mulmx_suml; apply: eq_bigr => a _; rewrite mulmx_sumr mulmx_suml; apply: eq_bigr => b _.
  by rewrite !h dag_mul -scalemxAr -scalemxAl !mulmxA.
by split=> -[L ->]; exists L; rewrite tE.
Qed.
Lemma adj_closed N (H : seq 'M[C]_N) h : List.In h (adjoint H) -> List.In (dag h) (adjoint H).
Proof.
case/In_cat=> [hin|/In_map_iff[k kin ->]]; apply/In_cat; last by left; rewrite dagK.
by right; apply/In_map_iff; exists h.
Qed.
Lemma adj_map N m (p : 'M[C]_(N, m)) (H : seq 'M[C]_N) : adjoint [seq dag p *m h *m p | h <- H] = [seq dag p *m h *m p | h <- adjoint H].
Proof. by rewrite /adjoint map_cat -!map_comp; congr (_ ++ _); apply: eq_map => h /=; rewrite !dag_mul dagK mulmxA. Qed.
Lemma tens_scalar N d n (E : 'I_d -> 'M[C]_(N, n)) c : orthoE E -> completeE E -> tens E c%:M = c%:M.
Proof. by move=> oE cE; rewrite -scalemx1 tensZ // tens1 // scalemx1. Qed.
Lemma su_commutes N d n (E : 'I_d -> 'M[C]_(N, n)) (H gens : seq 'M[C]_N) : (0 < N)%N -> (forall h, List.In h H -> List.In (dag h) H) ->
  is_basis rc gens (fun X => [/\ dag X = X, \tr X = 0 & commutes H X]) -> su_rep E gens ->
  forall X, commutes H X <-> exists L, X = tens E L.
Proof.
move=> N0 hH B R X; have [Nnd n0 d0 _] := rep_size N0 R; have [oE cE b] := R; split.
  case/(comm_span N0 hH B)=> c [Y [f ->] ->].
  have [L hL] : exists L : 'I_(size gens) -> 'M[C]_d, forall j : 'I_(size gens), gens`_j = tens E (L j).
    have h (j : 'I_(size gens)) : exists M, gens`_j = tens E M.
      by have /b.2[M _ ->] : span rc gens gens`_j; [apply: span_nth|exists M].
    by have [L hL] := fin_all_exists h; exists L.
  exists (c%:M + \sum_(j < size gens) f j *: L j); rewrite tensD // tens_scalar // tens_sum //; congr (_ + _).
  by apply: eq_bigr => j _; rewrite tensZ // -hL.
case=> L ->; have [c tc] := traceless d0 L.
have [//|h [k [dh dk e [/(_ tc)[th tk] _]]]] := @herm_parts _ d [::] _ (L - c%:M).
have hc M : dag M = M -> \tr M = 0 -> commutes H (tens E M).
  by move=> dM tM; have /b.2/B.2[] : exists2 L, dag L = L /\ \tr L = 0 & tens E M = tens E L by exists M.
have -> : L = c%:M + (h + 'i%C *: k) by rewrite -e addrC subrK.
rewrite !tensD // tensZ // tens_scalar //; apply: commD; first exact: comm_scalar.
by apply: commD; [|apply: commZ]; apply: hc.
Qed.
(* the representation found by factor *)
Lemma factor_su N d n (E : 'I_d -> 'M[C]_(N, n)) (H gens : seq 'M[C]_N) : (0 < n)%N -> orthoE E -> completeE E ->
  is_basis rc gens (fun X => [/\ dag X = X, \tr X = 0 & commutes H X]) ->
  (forall X, commutes H X <-> exists L, X = tens E L) -> su_rep E gens.
Proof.
move=> n0 oE cE B h; split=> //; apply: eq_basis B => X; split=> [[dX tX /h[L e]]|[L [dL tL] ->]].
  exists L => //; split; first by apply: (tens_inj oE n0); rewrite -tens_dag // -e.
  by move/eqP: tX; rewrite e tens_tr // mulf_eq0 pnatr_eq0 -leqn0 leqNgt n0 /= => /eqP.
by split; [rewrite tens_dag // dL|rewrite tens_tr // tL mulr0|apply/h; exists L].
Qed.
Lemma one_group N (N0 : (0 < N)%N) : orthoE (groups (mks [:: 1%:M : 'M[C]_N])) /\ completeE (groups (mks [:: 1%:M : 'M[C]_N])) /\
  forall L, tens (groups (mks [:: 1%:M : 'M[C]_N])) L = (L 0 0)%:M.
Proof.
split; last split.
- by move=> a b; rewrite !ord1 /groups /= dag1 mulmx1.
- by rewrite /completeE big_ord1 /groups /= dag1 mulmx1.
by move=> L; rewrite /tens !big_ord1 /groups /= dag1 mulmx1 scalemx1.
Qed.
End Lift.

(* ---- what follows for the Hamiltonian ---- *)
Lemma apart_split T (R : T -> T -> Prop) s x t : apart R (s ++ x :: t) -> (forall y, List.In y s -> R y x) /\ (forall y, List.In y t -> R x y).
Proof.
elim: s => [|z s IH] /= [h]; first by move=> _; split.
move=> /IH[h1 h2]; split=> // y [<-|]; last exact: h1.
by apply: h; apply/In_cat; right; left.
Qed.
Section Blocks.
Variable F : rcfType.
Local Notation C := F[i].
Variables (N : nat) (H : seq 'M[C]_N) (rs : seq (stack F N)).
Hypothesis R : reduced H rs.
(* the block of h in the first irreducible subspace of the array *)
Definition blk (S : stack F N) (h : 'M[C]_N) : 'M[C]_(tag S) :=
  if insub 0%N is Some a then dag (groups S a) *m h *m groups S a else 0.
Lemma flip_orth m n (A : 'M[C]_(N, m)) (B : 'M[C]_(N, n)) : dag A *m B = 0 -> dag B *m A = 0.
Proof. by move=> e; rewrite -[LHS]dagK dag_mul dagK e dag0. Qed.
Lemma tensz d n (E : 'I_d -> 'M[C]_(N, n)) (L : 'M[C]_d) : (forall a b, L a b = 0) -> tens E L = 0.
Proof. by move=> z; rewrite /tens big1 // => a _; rewrite big1 // => b _; rewrite z scale0r. Qed.
Lemma tens_delta d n (E : 'I_d -> 'M[C]_(N, n)) (a b : 'I_d) : tens E (delta_mx a b) = E a *m dag (E b).
Proof.
rewrite /tens (bigD1 a) //= (bigD1 b) //= mxE !eqxx scale1r !big1 ?addr0 // => [c ca|c cb].
  by rewrite big1 // => e _; rewrite mxE (negPf ca) scale0r.
by rewrite mxE (negPf cb) andbF scale0r.
Qed.
Lemma cut (S : stack F N) s t : rs = s ++ S :: t ->
  orthoE (groups S) /\ forall T, List.In T s \/ List.In T t -> forall a c, dag (groups S a) *m groups T c = 0.
Proof.
move=> e; have [o ap _ _] := R; split; first by have [] := o S; rewrite // e; apply/In_cat; right; left.
have [h1 h2] : (forall T, List.In T s -> forall a b, dag (groups T a) *m groups S b = 0) /\ (forall T, List.In T t -> forall a b, dag (groups S a) *m groups T b = 0).
  by move: ap; rewrite e => ap; exact: (apart_split ap).
by move=> T [/h1 h a c|/h2 h a c //]; apply: flip_orth.
Qed.
Lemma sum_kill (s : seq (stack F N)) (f : stack F N -> 'M[C]_N) m (A : 'M[C]_(m, N)) : (forall T, List.In T s -> A *m f T = 0) ->
  A *m (\sum_(T <- s) f T) = 0.
Proof.
by move=> h; rewrite mulmx_sumr sum_zero.
Qed.
Lemma kill_tens (T : stack F N) m (A : 'M[C]_(m, N)) L : (forall c, A *m groups T c = 0) -> A *m tens (groups T) L = 0.
Proof.
move=> z; rewrite /tens mulmx_sumr big1 // => a _; rewrite mulmx_sumr big1 // => b _.
by rewrite -scalemxAr mulmxA z mul0mx scaler0.
Qed.
Lemma tens_kill (T : stack F N) m (A : 'M[C]_(N, m)) L : (forall c, dag (groups T c) *m A = 0) -> tens (groups T) L *m A = 0.
Proof.
move=> z; rewrite /tens mulmx_suml big1 // => a _; rewrite mulmx_suml big1 // => b _.
by rewrite -scalemxAl -mulmxA z mulmx0 scaler0.
Qed.
Lemma In_cut (S : stack F N) : List.In S rs -> exists s t, rs = s ++ S :: t.
Proof. by move=> Sin; have [s [t e]] := List.in_split _ _ Sin; exists s, t. Qed.

Lemma unit_commutes S : List.In S rs -> forall a b, commutes H (groups S a *m dag (groups S b)).
Proof.
move=> Sin a b; have [o _ _ h] := R; have [_ w0 oS] := o S Sin; have [s [t e]] := In_cut Sin; have [_ z] := cut e.
set X := _ *m _; apply/h; pose L (T : stack F N) : 'M[C]_(size (tagged T)) := \matrix_(c, d)
  (if insub 0%N is Some z then (dag (groups T c) *m X *m groups T d) z z else 0).
exists L; have zL T : List.In T s \/ List.In T t -> tens (groups T) (L T) = 0.
  move=> Tin; apply: tensz => c d; rewrite mxE; case: insubP => // u _ _.
  have -> : dag (groups T c) *m X *m groups T d = (dag (groups T c) *m groups S a) *m (dag (groups S b) *m groups T d) by rewrite /X !mulmxA.
  by rewrite (flip_orth (z T Tin a c)) mul0mx mxE.
rewrite e big_cat big_cons /= [\sum_(T <- s) _]sum_zero => [|T Ts]; last by apply: zL; left.
rewrite [\sum_(T <- t) _]sum_zero => [|T Tt]; last by apply: zL; right.
rewrite add0r addr0.
have -> : L S = delta_mx a b; last by rewrite tens_delta.
apply/matrixP => c d; rewrite !mxE insubT /=.
have -> : dag (groups S c) *m X *m groups S d = (dag (groups S c) *m groups S a) *m (dag (groups S b) *m groups S d) by rewrite /X !mulmxA.
by rewrite !oS -scalar_mxM mxE eqxx mulr1n -natrM mulnb [b == d]eq_sym.
Qed.

(* every matrix of the family is block diagonal and the blocks of one array are the same *)
Theorem C98_blocks S : List.In S rs -> forall h, List.In h H -> forall a, h *m groups S a = groups S a *m blk S h.
Proof.
move=> Sin h hin a; have [o _ _ _] := R; have [s0 _ oS] := o S Sin; rewrite /blk insubT /=; set a0 := Ordinal _.
have c1 := unit_commutes Sin a a0 hin.
rewrite -[LHS]mulmx1 -[1%:M](_ : dag (groups S a0) *m groups S a0 = _); last by rewrite oS eqxx.
by rewrite !mulmxA -[h *m _ *m _]mulmxA -c1 -!mulmxA.
Qed.
Lemma blk_left S : List.In S rs -> forall h, List.In h H -> forall a, dag (groups S a) *m h = blk S h *m dag (groups S a).
Proof.
move=> Sin h hin a; have [o _ _ _] := R; have [s0 _ oS] := o S Sin.
have e1 : dag (groups S a) *m groups S a = 1%:M by rewrite oS eqxx.
rewrite -[LHS]mul1mx -e1; have -> : dag (groups S a) *m groups S a *m (dag (groups S a) *m h) = dag (groups S a) *m (groups S a *m dag (groups S a) *m h) by rewrite !mulmxA.
by rewrite (unit_commutes Sin a a hin) !mulmxA -[dag _ *m h *m _]mulmxA (C98_blocks Sin hin) !mulmxA e1 mul1mx.
Qed.
(* the blocks are irreducible *)
Theorem C98_irreducible S : List.In S rs -> forall Y : 'M[C]_(tag S), (forall h, List.In h H -> Y *m blk S h = blk S h *m Y) -> exists c, Y = c%:M.
Proof.
move=> Sin Y cY; have [o _ _ hc] := R; have [s0 w0 oS] := o S Sin; have [s [t e]] := In_cut Sin; have [_ z] := cut e.
pose a := Ordinal s0; have [|L eL] := (hc (groups S a *m Y *m dag (groups S a))).1.
  move=> h hin; rewrite -mulmxA (blk_left Sin hin) !mulmxA (C98_blocks Sin hin) -!mulmxA; congr (_ *m _).
  by rewrite !mulmxA cY.
exists (L S a a); have e1 : dag (groups S a) *m groups S a = 1%:M by rewrite oS eqxx.
have <- : dag (groups S a) *m (groups S a *m Y *m dag (groups S a)) *m groups S a = Y by rewrite -!mulmxA e1 mulmx1 mulmxA e1 mul1mx.
rewrite eL e big_cat big_cons /= !mulmxDr !sum_kill; try by move=> T Tin; apply: kill_tens => c; apply: z; auto.
by rewrite add0r addr0 tens_get.
Qed.
(* and those of different arrays are not equivalent *)
Theorem C98_inequivalent : apart (fun S S' : stack F N => forall Y : 'M[C]_(tag S, tag S'), (forall h, List.In h H -> blk S h *m Y = Y *m blk S' h) -> Y = 0) rs.
Proof.
have [o _ _ hc] := R.
have main S S' s t : rs = s ++ S :: t -> List.In S' t -> forall Y : 'M[C]_(tag S, tag S'), (forall h, List.In h H -> blk S h *m Y = Y *m blk S' h) -> Y = 0.
  move=> e S't Y cY.
  have Sin : List.In S rs by rewrite e; apply/In_cat; right; left.
  have S'in : List.In S' rs by rewrite e; apply/In_cat; right; right.
  have [s0 w0 oS] := o S Sin; have [s0' w0' oS'] := o S' S'in; have [_ z] := cut e.
  pose a := Ordinal s0; pose b := Ordinal s0'.
  have [|L eL] := (hc (groups S a *m Y *m dag (groups S' b))).1.
    move=> h hin; rewrite -mulmxA (blk_left S'in hin) !mulmxA (C98_blocks Sin hin) -!mulmxA; congr (_ *m _).
    by rewrite !mulmxA cY.
  have e1 : dag (groups S a) *m groups S a = 1%:M by rewrite oS eqxx.
  have e2 : dag (groups S' b) *m groups S' b = 1%:M by rewrite oS' eqxx.
  have <- : dag (groups S a) *m (groups S a *m Y *m dag (groups S' b)) *m groups S' b = Y by rewrite -!mulmxA e2 mulmx1 mulmxA e1 mul1mx.
  rewrite eL e big_cat big_cons /= !mulmxDr !sum_kill; try by move=> T Tin; apply: kill_tens => c; apply: z; auto.
  by rewrite add0r addr0 -mulmxA tens_kill ?mulmx0 // => c; apply: z; right.
have: forall s t, rs = s ++ t -> apart (fun S S' : stack F N => forall Y : 'M[C]_(tag S, tag S'), (forall h, List.In h H -> blk S h *m Y = Y *m blk S' h) -> Y = 0) t.
  move=> s t; elim: t s => //= S t IH s e; split; first by move=> S'; apply: main e.
  by apply: (IH (rcons s S)); rewrite cat_rcons.
by move=> /(_ [::] rs); apply.
Qed.
Theorem C98_size : (\sum_(S <- rs) size (tagged S) * tag S)%N = N.
Proof.
have [o _ sm _] := R; apply/eqP; rewrite -(eqr_nat [numDomainType of C]) -[X in _ == X](mxtrace1 _ N) -sm; apply/eqP.
rewrite natr_sum raddf_sum /=; apply: eq_sumIn => S Sin; have [_ _ oS] := o S Sin.
rewrite raddf_sum (eq_bigr (fun=> (tag S)%:R)) => [|a _]; last by rewrite /= mxtrace_mulC oS eqxx mxtrace1.
by rewrite sumr_const card_ord natrM mulr_natl.
Qed.
End Blocks.

Lemma comm_all_scalar (K : fieldType) N (Z : 'M[K]_N) : (forall X, Z *m X = X *m Z) -> exists c, Z = c%:M.
Proof.
case: N Z => [|N] Z h; first by exists 0; apply/matrixP => -[].
have e i j a b : Z a i * (b == j)%:R = (a == i)%:R * Z j b.
  have l : (Z *m delta_mx i j) a b = Z a i * (b == j)%:R.
    rewrite mxE (bigD1 i) //= mxE eqxx big1 ?addr0 // => k ki; by rewrite mxE (negPf ki) mulr0.
  have r : (delta_mx i j *m Z) a b = (a == i)%:R * Z j b.
    rewrite mxE (bigD1 j) //= mxE eqxx andbT big1 ?addr0 // => k kj; by rewrite mxE (negPf kj) andbF mul0r.
  by rewrite -l -r h.
exists (Z 0 0); apply/matrixP => a b; rewrite mxE; have [<-|ab] := eqVneq a b.
  by have := e a 0 a 0; rewrite !eqxx mulr1 mul1r mulr1n.
by have := e b b a b; rewrite eqxx mulr1 (negPf ab) mul0r.
Qed.

Section Reduce.
Variables (F : rcfType) (tol atol ntol dtol : F).
Local Notation C := F[i].
Local Notation rc := [rmorphism of real_complex F].
Local Notation idf := [rmorphism of idfun].
Variables (eigh : forall n, 'M[C]_n -> seq F * 'M[C]_n) (svd : forall n, 'M[C]_n -> 'M[C]_n * 'M[C]_n).
Variables (nsR : forall N, seq 'rV[F]_N -> seq 'rV[F]_N) (nsC : forall N, seq 'rV[C]_N -> seq 'rV[C]_N).
Variables (lsq : forall m N, 'M[C]_(N * N, m) -> 'cV[C]_(N * N) -> 'cV[C]_m) (nsvd : forall m, 'M[C]_m -> seq F * 'M[C]_m).
Variables (eig : forall n, 'M[C]_n -> seq C * 'M[C]_n) (qr : forall n, 'M[C]_n -> 'M[C]_n).
Variables (components : forall n, rel 'I_n -> seq nat) (argsort : seq nat -> seq nat).
Hypotheses (t0 : 0 <= tol) (a0 : 0 <= atol) (n0 : 0 <= ntol) (d0 : 0 < dtol).
Hypotheses (eighP : eigh_contract eigh) (svdP : svd_contract svd) (nsP : exact_nullspace nsR).
Hypotheses (lsqP : forall m N, lstsq_contract (@lsq m N)).
Hypotheses (nsvdP : forall m (g : 'M[C]_m), exists u, is_svd (complex_star F) g u (nsvd g).1 (nsvd g).2).
Hypotheses (eigP : eig_contract eig) (qrP : qr_contract qr) (compP : components_contract components) (argP : argsort_contract argsort).

Lemma sym_gensP N (H : seq 'M[C]_N) : (0 < N)%N -> H <> [::] -> exists2 gens, sym_gens nsR nsC H = Ok gens &
  is_basis rc gens (fun X => [/\ dag X = X, \tr X = 0 & commutes (adjoint H) X]).
Proof.
move=> N0 ne; have h0 : (0 < size H)%N by case: (H) ne.
have [Xs e B] := @C24_solve_hermitian _ _ nsC nsP N H H true (nseq (size H) false) N0 h0 erefl (size_nseq _ _).
exists Xs => //; apply: eq_basis B => X.
have dd : dagger X = dag X by apply/matrixP => x y; rewrite !mxE.
split=> -[h1 h2 h3]; split; rewrite ?dd ?h1 -?dd //; try exact: h2.
- have c h : List.In h H -> X *m h = h *m X by case/(In_nth 0)=> i li ->; have := h3 i li; rewrite nth_nseq li.
  move=> h /In_cat[/c //|/In_map_iff[k /c e' ->]].
  by rewrite -[in LHS](etrans (esym dd) h1) -[in RHS](etrans (esym dd) h1) -!dag_mul e'.
- by move=> i li; rewrite nth_nseq li; apply: h3; apply/In_cat; left; apply: nth_In.
Qed.

Lemma reduce_spaceP N (H : seq 'M[C]_N) gc Ps P : H <> [::] ->
  (forall Z, in_centre (adjoint H) Z <-> exists c, exists2 Y, span idf gc Y & Z = c%:M + Y) ->
  is_diag gc Ps -> List.In P Ps ->
  match reduce_space tol atol eigh svd nsR nsC H P with
  | Ok T => [/\ (0 < size (tagged T))%N, (0 < tag T)%N, orthoE (groups T),
      \sum_a groups T a *m dag (groups T a) = tagged P *m dag (tagged P) &
      forall X, (exists L, X = tens (groups T) L) <-> exists2 Y, commutes [seq dag (tagged P) *m h *m tagged P | h <- adjoint H] Y & X = tagged P *m Y *m dag (tagged P)]
  | Err e => e = ValueError /\ (tol = 0 -> atol = 0 -> False)
  end.
Proof.
move=> ne gcP D Pin; have [/(_ P Pin)[p0 PP] _ _ _] := D; have hH := @adj_closed F N H.
rewrite /reduce_space; set Hr := [seq _ | h <- adjoint H].
have hr := Hr_herm hH (P := P) : forall h, List.In h Hr -> List.In (dag h) Hr.
have [|gensr -> B] := sym_gensP (H := [seq dag (tagged P) *m h *m tagged P | h <- H]) p0; first by case: (H) ne.
have {}B : is_basis rc gensr (fun X => [/\ dag X = X, \tr X = 0 & commutes Hr X]) by rewrite adj_map in B.
have lift (T : stack F (tag P)) : (0 < size (tagged T))%N -> (0 < tag T)%N -> orthoE (groups T) -> completeE (groups T) ->
  (forall Y, commutes Hr Y <-> exists L, Y = tens (groups T) L) ->
  let S := mks [seq tagged P *m P2 | P2 <- tagged T] in
  [/\ (0 < size (tagged S))%N, (0 < tag S)%N, orthoE (groups S), \sum_a groups S a *m dag (groups S a) = tagged P *m dag (tagged P) &
     forall X, (exists L, X = tens (groups S) L) <-> exists2 Y, commutes Hr Y & X = tagged P *m Y *m dag (tagged P)].
  move=> s0 w0 oT cT hT S.
  have es : size (tagged S) = size (tagged T) by rewrite size_map.
  have gE a : groups S a = tagged P *m groups T (cast_ord es a).
    by rewrite /groups /= (nth_map 0) //; have := ltn_ord a; rewrite {2}es.
  have [h1 h2 h3] := tens_lift PP gE oT cT; split=> // [|X]; first by rewrite es.
  rewrite h3; split=> [[L ->]|[Y /hT[L ->] ->]]; last by exists L.
  by eexists; [apply/hT; exists L|].
have N0 : (0 < N)%N.
  rewrite lt0n; apply/negP => /eqP N0; have /matrixP /(_ (Ordinal p0) (Ordinal p0)) := PP.
  by rewrite !mxE eqxx big1 => [/esym/eqP|[j lj]]; [rewrite oner_eq0|exfalso; rewrite N0 in lj].
case: gensr B => [|g gs] B /=.
  have [oT [cT tT]] := one_group F p0; apply: (lift (mks [:: 1%:M])) => // Y; split=> [cY|[L ->]].
    by have [c ->] := scalar_case p0 hr B erefl cY; exists c%:M; rewrite tT mxE.
  by rewrite tT; apply: comm_scalar.
have centre Z : StarAlg.in_alg (1%:M :: g :: gs) Z -> (forall X, StarAlg.in_alg (1%:M :: g :: gs) X -> Z *m X = X *m Z) -> exists c, Z = c%:M.
  move=> /(comm_alg p0 hr B) cZ zZ; apply: (centre_trivial hH gcP D Pin cZ) => Y cY; apply: zZ; exact/(comm_alg p0 hr B).
have [|||d [n [E [dd0 nn0 oE cE hE]]]] := factor _ _ _ centre p0.
- exact/(comm_alg p0 hr B)/comm1.
- by move=> X Y /(comm_alg p0 hr B) cX /(comm_alg p0 hr B) cY; apply/(comm_alg p0 hr B)/commM.
- by move=> X /(comm_alg p0 hr B) cX; apply/(comm_alg p0 hr B)/(comm_dag hr).
have R : su_rep E (g :: gs) by apply: (factor_su nn0 oE cE B) => X; rewrite -hE; split=> /(comm_alg p0 hr B).
have := sunP t0 a0 eighP svdP p0 R; case: (symmetry_adapted_sun _ _ _ _ _) => [T [sT wT RT]|e [-> h]]; last by split=> // z1 z2; have := h z1 z2.
have [oT cT _] := RT; apply: lift; rewrite ?sT ?wT //; exact: (su_commutes p0 hr B RT).
Qed.

Section Centre.
Variables (N : nat) (H gens : seq 'M[C]_N).
Hypotheses (N0 : (0 < N)%N) (hH : forall h, List.In h H -> List.In (dag h) H).
Hypothesis B : is_basis rc gens (fun X => [/\ dag X = X, \tr X = 0 & commutes H X]).
Local Notation g := (fun a : 'I_(size gens) => gens`_a).
Lemma gens_indep : independent g.
Proof.
move=> c e a; have := (cbasis hH B).1 (rowf (\row_b c b)); rewrite -combrE /combr => h.
have := h _ a (ltn_ord a); rewrite rowfE mxE; apply.
by rewrite -[RHS]e; apply: eq_bigr => b _; rewrite mxE.
Qed.
Lemma gens_span X : in_algebra g X <-> \tr X = 0 /\ commutes H X.
Proof.
split=> [[c ->]|/(cbasis hH B).2[f ->]]; last by exists (fun a => f a).
apply/(cbasis hH B).2; exists (rowf (\row_b c b)); rewrite -combrE; apply: eq_bigr => b _; by rewrite mxE.
Qed.
Lemma gens_herm (a : 'I_(size gens)) : dag gens`_a = gens`_a.
Proof. by have /B.2[] : span rc gens gens`_a by apply: span_nth. Qed.
Lemma gens_comm (a : 'I_(size gens)) : commutes H gens`_a.
Proof. by have /B.2[] : span rc gens gens`_a by apply: span_nth. Qed.
Lemma gens_closed : closed g.
Proof.
move=> a b; have /gens_span[c ->] : \tr (gens`_a *m gens`_b - gens`_b *m gens`_a) = 0 /\ commutes H (gens`_a *m gens`_b - gens`_b *m gens`_a).
  split; first by rewrite raddfB /= mxtrace_mulC subrr.
  by apply: commD; [|apply: commN]; apply: commM; apply: gens_comm.
by exists c.
Qed.
Lemma separate_ok : exists gc gs, separate_lie_algebra g (@lsq (size gens) N) (@nsvd (size gens)) ntol = Ok (gc, gs).
Proof.
have [S e] := (C91_closed gens_indep (lsqP (m := size gens) (N := N))).2 gens_closed.
rewrite /separate_lie_algebra /killing e /=; by eexists; eexists.
Qed.
Lemma centreE gc gs : separate_lie_algebra g (@lsq (size gens) N) (@nsvd (size gens)) ntol = Ok (gc, gs) ->
  gap g (@lsq (size gens) N) (@nsvd (size gens)) ntol ->
  forall Z, in_centre H Z <-> exists c, exists2 Y, span idf gc Y & Z = c%:M + Y.
Proof.
move=> e gp Z; have [[_ bc] _] := C90_centre gens_indep (lsqP (m := size gens) (N := N)) gens_herm (nsvdP (m := size gens)) n0 e gp.
split=> [[cZ zZ]|[c [Y /bc[/gens_span[_ cY] zY] ->]]].
  have [c tc] := traceless N0 Z; exists c, (Z - c%:M); last by rewrite addrC subrK.
  apply/bc; split; first by apply/gens_span; split=> //; apply: commD => //; apply/commN/comm_scalar.
  by move=> a; rewrite mulmxBl mulmxBr zZ ?scalar_mxC //; apply: gens_comm.
split; first by apply: commD => //; apply: comm_scalar.
move=> X /(comm_span N0 hH B)[c' [W [f eW] ->]]; have yw : Y *m W = W *m Y.
  rewrite eW mulmx_sumr mulmx_suml; apply: eq_bigr => a _; by rewrite -scalemxAl -scalemxAr (zY a).
rewrite !mulmxDl !mulmxDr yw !mul_scalar_mx !mul_mx_scalar !scale_scalar_mx [c' * c]mulrC -!addrA; congr (_ + _).
by rewrite addrCA.
Qed.
Lemma centre_spacesP : gens <> [::] -> gap g (@lsq (size gens) N) (@nsvd (size gens)) ntol ->
  (forall gc gs G, separate_lie_algebra g (@lsq (size gens) N) (@nsvd (size gens)) ntol = Ok (gc, gs) -> List.In G gc -> gapped dtol G) ->
  exists gc Ps, [/\ centre_spaces eigh lsq nsvd ntol dtol eig qr components argsort gens = Ok Ps,
    forall Z, in_centre H Z <-> exists c, exists2 Y, span idf gc Y & Z = c%:M + Y & is_diag gc Ps].
Proof.
move=> ne gp gd; have [gc [gs e]] := separate_ok; have cE := centreE e gp; exists gc; rewrite /centre_spaces e /=.
case: gc e cE => [|G gc] e cE.
  exists [:: mkr 1%:M]; split=> //; split=> //=.
  - by move=> P [<-|//]; split=> //=; rewrite dag1 mulmx1.
  - by rewrite big_seq1 /= dag1 mulmx1.
have ic G' : List.In G' (G :: gc) -> in_centre H G' by apply: (gc_centre cE).
have [|G' Gin|A B' Ain Bin|Ps eP dP] := C77_simult_diag d0 eighP eigP qrP compP argP N0 (mats := G :: gc).
- by [].
- split; last exact: gd e Gin.
  by have [cG zG] := ic G' Gin; apply: zG; apply: comm_dag.
- by have [cA zA] := ic A Ain; have [cB zB] := ic B' Bin; apply: zA.
by exists Ps.
Qed.
End Centre.

(* C98 *)
Definition hyp N (H : seq 'M[C]_N) : Prop := forall gens, sym_gens nsR nsC H = Ok gens ->
  let g := (fun a : 'I_(size gens) => gens`_a) in
  gap g (@lsq (size gens) N) (@nsvd (size gens)) ntol /\
  forall gc gs G, separate_lie_algebra g (@lsq (size gens) N) (@nsvd (size gens)) ntol = Ok (gc, gs) -> List.In G gc -> gapped dtol G.
Theorem reduceP N (H : seq 'M[C]_N) : (0 < N)%N -> H <> [::] -> hyp H ->
  match reduce_hamiltonian tol atol eigh svd nsR nsC lsq nsvd ntol dtol eig qr components argsort H with
  | Ok rs => reduced (adjoint H) rs
  | Err e => e = ValueError /\ (tol = 0 -> atol = 0 -> False)
  end.
Proof.
move=> N0 ne hyps; have hH := @adj_closed F N H; have [gens e B] := sym_gensP N0 ne; rewrite /reduce_hamiltonian e /=; have [gp gd] := hyps _ e.
case eg : gens => [|g0 gs0].
  have [oT [cT tT]] := one_group F N0; split=> //=.
  - by move=> T [<-|//].
  - by rewrite big_seq1.
  move=> X; split=> [cX|[L ->]]; last by rewrite big_seq1 tT; apply: comm_scalar.
  have [c ->] := scalar_case N0 hH B eg cX; exists (fun=> c%:M); rewrite big_seq1 tT mxE //.
rewrite -eg; have [|gc [Ps [-> cE D]]] := centre_spacesP N0 hH B _ gp gd; first by rewrite eg.
rewrite /=; have sp P : List.In P Ps -> _ := fun Pin => reduce_spaceP ne cE D Pin.
have [ok|[P [er [Pr eP ->]]]] := map_resE (reduce_space tol atol eigh svd nsR nsC H) (mks ([::] : seq 'M[C]_(N, 0))) Ps; last first.
  by have := sp P Pr; rewrite eP.
rewrite (map_resP ok); set f := fun x => _.
have {}sp P : List.In P Ps -> [/\ (0 < size (tagged (f P)))%N, (0 < tag (f P))%N, orthoE (groups (f P)),
      \sum_a groups (f P) a *m dag (groups (f P) a) = tagged P *m dag (tagged P) &
      forall X, (exists L, X = tens (groups (f P)) L) <-> exists2 Y, commutes [seq dag (tagged P) *m h *m tagged P | h <- adjoint H] Y & X = tagged P *m Y *m dag (tagged P)].
  by move=> Pin; have := sp P Pin; rewrite /f ok //.
have [un sm _ ap] := D.
have gp2 P : List.In P Ps -> forall a, tagged P *m dag (tagged P) *m groups (f P) a = groups (f P) a.
  move=> Pin a; have [_ _ oS <- _] := sp P Pin; rewrite mulmx_suml (bigD1 a) //= -mulmxA oS eqxx mulmx1 big1 ?addr0 // => b ba.
  by rewrite -mulmxA oS (negPf ba) -scalemx1 scale0r mulmx0.
split.
- by move=> T /In_map_iff[P Pin ->]; have [] := sp P Pin.
- have orth P P' : List.In P Ps -> List.In P' Ps -> separated gc P P' -> forall a b, dag (groups (f P) a) *m groups (f P') b = 0.
    move=> Pin Pin' se a b; rewrite -(gp2 P Pin a) -(gp2 P' Pin' b) !dag_mul dagK.
    have z : dag (tagged P) *m tagged P' = 0.
      have c1 G : List.In G gc -> 1%:M *m G = G *m 1%:M by rewrite mulmx1 mul1mx.
      by have := off_diag hH cE D c1 Pin' Pin (or_intror se); rewrite mulmx1.
    have -> : dag (groups (f P) a) *m (tagged P *m dag (tagged P)) *m (tagged P' *m dag (tagged P') *m groups (f P') b) =
      dag (groups (f P) a) *m tagged P *m (dag (tagged P) *m tagged P') *m (dag (tagged P') *m groups (f P') b) by rewrite !mulmxA.
    by rewrite z mulmx0 mul0mx.
  have: forall s, (forall P, List.In P s -> List.In P Ps) -> apart (separated gc) s ->
    apart (fun S S' : stack F N => forall a b, dag (groups S a) *m groups S' b = 0) (map f s).
    elim=> //= P s IH sub [h1 h2]; split; last by apply: IH => // Q Qs; apply: sub; right.
    by move=> T /In_map_iff[Q Qs ->]; apply: orth; [apply: sub; left|apply: sub; right|apply: h1].
  by move=> /(_ Ps) h; apply: h.
- rewrite big_map -[RHS]sm; apply: eq_sumIn => P Pin; by have [] := sp P Pin.
move=> X; split=> [cX|[L ->]]; last first.
  rewrite big_map => h hin; rewrite mulmx_suml mulmx_sumr; apply: eq_sumIn => P Pin; have [_ _ _ _ hS] := sp P Pin.
  have [Y cY ->] := (hS _).1 (ex_intro _ (L (f P)) erefl); exact: (comm_up hH cE D Pin cY).
pose L (S : stack F N) : 'M[C]_(size (tagged S)) := \matrix_(a, b)
  (if insub 0%N is Some z then (dag (groups S a) *m X *m groups S b) z z else 0).
exists L; rewrite big_map -[LHS]mulmx1 -sm mulmx_sumr; apply: eq_sumIn => P Pin.
have [s0 w0 oS sS hS] := sp P Pin; have r := inv_right hH cE D Pin (or_introl cX).
have [L0 e0] : exists L, X *m (tagged P *m dag (tagged P)) = tens (groups (f P)) L.
  apply/hS; exists (dag (tagged P) *m X *m tagged P); first exact: (comm_down hH cE D Pin cX).
  by rewrite mulmxA r !mulmxA.
rewrite e0; congr tens; apply/matrixP => a b; rewrite mxE insubT /=.
have := tens_get oS L0 a b; rewrite -e0 -mulmxA -[X *m _ *m _]mulmxA gp2 // mulmxA => ->.
by rewrite mxE eqxx mulr1n.
Qed.

(* C98: what is returned is a complete symmetry adapted basis *)
Theorem C98_general N (H : seq 'M[C]_N) rs : (0 < N)%N -> H <> [::] -> hyp H ->
  reduce_hamiltonian tol atol eigh svd nsR nsC lsq nsvd ntol dtol eig qr components argsort H = Ok rs -> reduced (adjoint H) rs.
Proof. by move=> N0 ne hy e; have := reduceP N0 ne hy; rewrite e. Qed.
(* the adjoints can be left out if they are in the span of the family, as for the coefficients of a Hermitian Model *)
Theorem C98_sound N (H : seq 'M[C]_N) rs : (0 < N)%N -> H <> [::] -> (forall h, List.In h H -> span idf H (dag h)) -> hyp H ->
  reduce_hamiltonian tol atol eigh svd nsR nsC lsq nsvd ntol dtol eig qr components argsort H = Ok rs -> reduced H rs.
Proof.
move=> N0 ne cl hy /(C98_general N0 ne hy)[h1 h2 h3 h4]; split=> // X; rewrite -h4; split=> cX h hin; last by apply: cX; apply/In_cat; left.
case/In_cat: hin => [/cX //|/In_map_iff[k /cl[f e] ->]].
rewrite e mulmx_sumr mulmx_suml; apply: eq_bigr => j _; by rewrite -scalemxAl -scalemxAr cX //; apply: nth_In.
Qed.
Theorem C98_error N (H : seq 'M[C]_N) e : (0 < N)%N -> H <> [::] -> hyp H ->
  reduce_hamiltonian tol atol eigh svd nsR nsC lsq nsvd ntol dtol eig qr components argsort H = Err e -> e = ValueError.
Proof. by move=> N0 ne hy er; have := reduceP N0 ne hy; rewrite er => -[]. Qed.
Theorem C98_found N (H : seq 'M[C]_N) : (0 < N)%N -> H <> [::] -> hyp H -> tol = 0 -> atol = 0 ->
  exists rs, reduce_hamiltonian tol atol eigh svd nsR nsC lsq nsvd ntol dtol eig qr components argsort H = Ok rs.
Proof.
move=> N0 ne hy z1 z2; have := reduceP N0 ne hy.
by case: (reduce_hamiltonian _ _ _ _ _ _ _ _ _ _ _ _ _ _ _) => [rs _|e [_ /(_ z1 z2)]] //; exists rs.
Qed.

(* all matrices are symmetries of the identity: a single array of N lines *)
Lemma hyp_one N : (0 < N)%N -> ntol = 0 -> hyp [:: 1%:M : 'M[C]_N].
Proof.
move=> N0 nz gens e g.
have h1 := @adj_closed F N [:: 1%:M].
have [//|gens' e' B] := @sym_gensP N [:: 1%:M] N0; move: e'; rewrite e => -[e']; subst gens'.
have gp : gap g (@lsq (size gens) N) (@nsvd (size gens)) ntol.
  move=> k i _; rewrite nz => le; have [u [_ _ _ /allP pos _]] := nsvdP k; apply/eqP; rewrite eq_le le /=.
  by have [li|li] := ltnP i (size (nsvd k).1); [apply/pos/mem_nth|rewrite nth_default].
split=> // gc gs G es Gin.
have [cG zG] : in_centre (adjoint [:: 1%:M]) G by apply/(centreE N0 h1 B es gp); exists 0; exists G; [apply: span_mem|rewrite raddf0 add0r].
have [c ->] : exists c, G = c%:M by apply: comm_all_scalar => X; apply: zG => h /=; rewrite dag1 => -[<-|[<-|//]]; rewrite mulmx1 mul1mx.
have ev x : eigenval (c%:M : 'M[C]_N) x -> x = c.
  move=> [v v0]; rewrite mul_scalar_mx => /eqP; rewrite -subr_eq0 -scalerBl scaler_eq0 (negPf v0) orbF subr_eq0 => /eqP //.
by move=> x y /ev -> /ev ->; rewrite eqxx.
Qed.
Example C98_example N : (0 < N)%N -> tol = 0 -> atol = 0 -> ntol = 0 ->
  exists S, [/\ reduce_hamiltonian tol atol eigh svd nsR nsC lsq nsvd ntol dtol eig qr components argsort [:: 1%:M : 'M[C]_N] = Ok [:: S],
    size (tagged S) = N & tag S = 1%N].
Proof.
move=> N0 tz az nz; have h1 := @adj_closed F N [:: 1%:M].
have [//|rs e] := C98_found N0 _ (hyp_one N0 nz) tz az; have R := C98_sound N0 _ _ (hyp_one N0 nz) e.
have {}R : reduced [:: 1%:M] rs by apply: R => // h [<-|//]; rewrite dag1; apply: span_mem; left.
have [o _ _ _] := R.
have b1 S : List.In S rs -> blk S 1%:M = 1%:M.
  by move=> Sin; have [s0 _ oS] := o S Sin; rewrite /blk insubT /= mulmx1 oS eqxx.
have w1 S : List.In S rs -> tag S = 1%N.
  move=> Sin; have [_ w0 _] := o S Sin; apply/eqP; rewrite eqn_leq w0 andbT leqNgt; apply/negP => w2.
  have [|c ec] := C98_irreducible R Sin (Y := delta_mx (Ordinal w0) (Ordinal w0)).
    by move=> h [<-|//]; rewrite b1 // mulmx1 mul1mx.
  have /matrixP /(_ (Ordinal w0) (Ordinal w0)) := ec; have /matrixP /(_ (Ordinal w2) (Ordinal w2)) := ec.
  by rewrite !mxE !eqxx !mulr1n /= => <- /eqP; rewrite oner_eq0.
have := C98_inequivalent R; have := C98_size R; case: rs e R o b1 w1 => [|S rs] e R o b1 w1.
  by rewrite big_nil => N1; move: N0; rewrite -N1.
have e1 : (size (tagged S) * tag S)%N = size (tagged S).
  by have w : tag S = 1%N by [apply: w1; left]; rewrite [X in (_ * X)%N]w muln1.
rewrite big_cons e1.
case: rs e R o b1 w1 => [|S' rs] e R o b1 w1; first by rewrite big_nil addn0 => sz _; exists S; split=> //; apply: w1; left.
have Sin : List.In S [:: S, S' & rs] by left.
have S'in : List.In S' [:: S, S' & rs] by right; left.
move=> _ [/(_ S' (or_introl erefl) (const_mx 1)) z _].
have /matrixP : const_mx 1 = 0 :> 'M[C]_(tag S, tag S').
  by apply: z => h [<-|//]; rewrite (b1 S Sin) (b1 S' S'in) mulmx1 mul1mx.
have [_ l1 _] := o S Sin; have [_ l2 _] := o S' S'in; move=> /(_ (Ordinal l1) (Ordinal l2))/eqP.
by rewrite !mxE oner_eq0.
Qed.
End Reduce.


Print Assumptions C98_sound.
Print Assumptions C98_example.
