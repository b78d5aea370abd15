(* Matrix algebras closed under the conjugate transpose.  If only multiples of the identity commute with
   everything in the algebra, then in a suitable basis it consists of all matrices L (x) 1. *)
From mathcomp Require Import all_ssreflect all_algebra.
From mathcomp Require Import complex.
From Verif Require Import Prelude LinSpan Star Nullspace SymBlocks PropBlocks PropLie PropSimult Oracles PropOracles.

Set Implicit Arguments.
Unset Strict Implicit.
Unset Printing Implicit Defensive.
Import Order.TTheory GRing.Theory Num.Theory.
Local Open Scope ring_scope.

Section Spectral.
Variable F : rcfType.
Local Notation C := F[i].
Variable N : nat.
Implicit Types (X Y Z U : 'M[C]_N).

Lemma dagD m n (A B : 'M[C]_(m, n)) : dag (A + B) = dag A + dag B.
Proof. by apply/matrixP => i j; rewrite !mxE (rmorphD (conjc_rmorphism F)). Qed.

Definition level (l : 'rV[C]_N) (a : C) U : 'M[C]_N := U *m diag_mx (\row_i (l 0 i == a)%:R) *m dag U.

Section Level.
Variables (X U : 'M[C]_N) (l : 'rV[C]_N).
Hypotheses (uU : U *m dag U = 1%:M) (XU : X *m U = U *m diag_mx l).
Let UU : dag U *m U = 1%:M. Proof. exact: mulmx1C. Qed.
Let XE : X = U *m diag_mx l *m dag U. Proof. by rewrite -XU -mulmxA uU mulmx1. Qed.

(* what is closed under combinations and multiplication by X contains the spectral projectors *)
Lemma level_closed (T : 'M[C]_N -> Prop) a : T 1%:M -> (forall Y Z b, T Y -> T Z -> T (Y + b *: Z)) ->
  (forall Y, T Y -> T (X *m Y)) -> T (level l a U).
Proof.
move=> T1 TD TX; pose e (s : seq 'I_N) : 'rV[C]_N := \row_i \prod_(j <- s) (l 0 i - l 0 j).
have Te s : T (U *m diag_mx (e s) *m dag U).
  elim: s => [|j s IH].
    have -> : diag_mx (e [::]) = 1%:M by rewrite -diag_const_mx; congr diag_mx; apply/rowP => i; rewrite !mxE big_nil.
    by rewrite mulmx1 uU.
  have -> : U *m diag_mx (e (j :: s)) *m dag U = X *m (U *m diag_mx (e s) *m dag U) + (- l 0 j) *: (U *m diag_mx (e s) *m dag U).
    rewrite !mulmxA XU -[U *m diag_mx l *m _]mulmxA mulmx_diag scalemxAl -mulmxDl; congr (_ *m _).
    rewrite scalemxAr -mulmxDr; congr (_ *m _); apply/matrixP => x y; rewrite !mxE big_cons.
    case: (x == y); rewrite ?mulr1n ?mulr0n ?mulr0 ?addr0 //.
    by rewrite mulrDl.
  by apply: TD => //; apply: TX.
pose s := [seq j <- enum 'I_N | l 0 j != a].
pose c := \prod_(j <- s) (a - l 0 j).
have c0 : c != 0.
  rewrite prodf_seq_neq0; apply/allP => j; rewrite mem_filter => /andP[h _]; by rewrite subr_eq0 eq_sym h.
have T0 : T 0 by rewrite -(subrr 1%:M) -scaleN1r; apply: TD.
have -> : level l a U = 0 + c^-1 *: (U *m diag_mx (e s) *m dag U); last exact: TD.
rewrite add0r /level scalemxAl scalemxAr; congr (_ *m _ *m _); apply/matrixP => x y; rewrite !mxE.
case: (x == y); rewrite ?mulr0n ?mulr0 // !mulr1n; case: eqVneq => [->|h]; first by rewrite mulVf.
have xs : x \in s by rewrite mem_filter h mem_enum.
have us : uniq s by rewrite filter_uniq // enum_uniq.
by rewrite (bigD1_seq x) //= subrr mul0r mulr0.
Qed.

Lemma fun_closed (T : 'M[C]_N -> Prop) (f : pred C) : T 1%:M -> (forall Y Z b, T Y -> T Z -> T (Y + b *: Z)) ->
  (forall Y, T Y -> T (X *m Y)) -> T (U *m diag_mx (\row_i (f (l 0 i))%:R) *m dag U).
Proof.
move=> T1 TD TX; have T0 : T 0 by have := TD 1%:M 1%:M (-1) T1 T1; rewrite scaleN1r subrr.
pose s := undup [seq l 0 i | i <- enum 'I_N].
have -> : U *m diag_mx (\row_i (f (l 0 i))%:R) *m dag U = \sum_(a <- s | f a) level l a U.
  rewrite -mulmx_suml -mulmx_sumr; congr (_ *m _ *m _); rewrite -raddf_sum; congr diag_mx; apply/rowP => i.
  rewrite summxE mxE; have si : l 0 i \in s by rewrite mem_undup map_f // mem_enum.
  case fi : (f (l 0 i)).
    rewrite -big_filter (bigD1_seq (l 0 i)) ?filter_uniq ?undup_uniq ?mem_filter ?fi //= mxE eqxx big1 ?addr0 // => a ne.
    by rewrite mxE eq_sym (negPf ne).
  by rewrite big1 // => a fa; rewrite mxE; case: eqP => // e; rewrite e fa in fi.
elim: (s) => [|a r IH]; first by rewrite big_nil.
rewrite big_cons; case: ifP => // _; rewrite addrC -[level l a U]scale1r.
by have := level_closed a T1 TD TX; move: IH; apply: TD.
Qed.

Lemma level_sq a : level l a U *m level l a U = level l a U.
Proof.
rewrite /level !mulmxA -[_ *m dag U *m U]mulmxA UU mulmx1; congr (_ *m _); rewrite -mulmxA mulmx_diag; congr (_ *m diag_mx _).
by apply/rowP => i; rewrite !mxE; case: eqP; rewrite ?mulr1 ?mulr0.
Qed.
Lemma level_dag a : dag (level l a U) = level l a U.
Proof.
rewrite /level !dag_mul dagK -mulmxA; congr (_ *m (_ *m _)); apply/matrixP => i j; rewrite !mxE.
have [->|ij] := eqVneq i j; first by rewrite !mulr1n conjc_nat.
by rewrite !mulr0n conjc0.
Qed.
Lemma level_eigen a : X *m level l a U = a *: level l a U.
Proof.
rewrite /level !mulmxA XU -[U *m _ *m _]mulmxA mulmx_diag scalemxAl scalemxAr; congr (_ *m _ *m _).
apply/matrixP => i j; rewrite !mxE; case: (i == j); rewrite ?mulr0n ?mulr0 // !mulr1n.
by case: eqP => [->|]; rewrite ?mulr0.
Qed.
(* some projector meets any given vectors *)
Lemma level_meets p : (p : 'M[C]_N) != 0 -> exists i, level l (l 0 i) U *m p != 0.
Proof.
move=> p0; apply/existsP; apply: contraNT p0; rewrite negb_exists => /forallP h.
suff : dag U *m p = 0 by move=> e; rewrite -[p]mul1mx -uU -mulmxA e mulmx0.
apply/row_matrixP => i; rewrite row0 row_mul.
have -> : row i (dag U) = row i (dag U) *m level l (l 0 i) U.
  rewrite /level !mulmxA -row_mul UU row1 -rowE row_diag_mx mxE eqxx scale1r -rowE.
  by [].
by have := h i; rewrite negbK => /eqP e; rewrite -mulmxA e mulmx0.
Qed.
(* the projector on the kernel *)
Lemma level0 m (Y : 'M[C]_(N, m)) : X *m Y = 0 -> level l 0 U *m Y = Y.
Proof.
move=> XY; have e : diag_mx l *m (dag U *m Y) = 0.
  by have := congr1 (fun Z : 'M[C]_(N, m) => dag U *m Z) XY; rewrite mulmx0 XE !mulmxA UU mul1mx.
have h : diag_mx (\row_i (l 0 i == 0)%:R) *m (dag U *m Y) = dag U *m Y.
  move: (dag U *m Y) e => T e; apply/matrixP => i j; rewrite mul_diag_mx 2!mxE.
  have := congr1 (fun Z : 'M[C]_(N, m) => Z i j) e; rewrite /= mul_diag_mx [LHS]mxE [RHS]mxE => /eqP.
  by rewrite mulf_eq0; case: eqVneq => [_ _|_ /= /eqP ->]; rewrite ?mul1r ?mulr0.
by rewrite /level -!mulmxA h mulmxA uU mul1mx.
Qed.
End Level.
End Spectral.

Section Range.
Variables (F : rcfType) (N : nat).
Local Notation C := F[i].
(* an orthonormal basis of the range of a projector *)
Lemma range_basis (p : 'M[C]_N) : p *m p = p -> dag p = p ->
  exists n, exists2 W : 'M[C]_(N, n), dag W *m W = 1%:M & W *m dag W = p.
Proof.
move=> pp dp; have nP : normal p by rewrite /normal dp.
have [U uU [l E]] := spectral nP; have UU := mulmx1C uU.
have pE : p = U *m diag_mx l *m dag U by rewrite -E -mulmxA uU mulmx1.
have l01 i : l 0 i = (l 0 i == 1)%:R.
  have : diag_mx l *m diag_mx l = diag_mx l.
    have := pp; rewrite pE !mulmxA -[_ *m dag U *m U]mulmxA UU mulmx1 => e.
    have := congr1 (fun Y => dag U *m Y *m U) e; rewrite /= !mulmxA UU !mul1mx.
    by rewrite -!mulmxA !UU !mulmx1.
  move/matrixP/(_ i i); rewrite mulmx_diag !mxE eqxx !mulr1n => /eqP.
  by rewrite -subr_eq0 -{3}[l 0 i]mulr1 -mulrBr mulf_eq0 subr_eq0 => /orP[/eqP ->|/eqP ->]; rewrite ?eqxx // eq_sym oner_eq0.
pose S := [set i : 'I_N | l 0 i == 1].
exists #|S|, (\matrix_(x, y) U x (enum_val y)).
  apply/matrixP => x y; rewrite !mxE -(inj_eq enum_val_inj).
  have := congr1 (fun Y : 'M[C]_N => Y (enum_val x) (enum_val y)) UU; rewrite /= !mxE => <-.
  by apply: eq_bigr => z _; rewrite !mxE.
rewrite pE; apply/matrixP => x y; rewrite !mxE.
rewrite (eq_bigr (fun j : 'I_#|S| => U x (enum_val j) * conjc (U y (enum_val j)))) => [|j _]; last by rewrite !mxE.
rewrite -(big_enum_val (fun j => U x j * conjc (U y j))) [RHS](bigID (mem S)) /= [X in _ = _ + X]big1 ?addr0 => [|j].
  apply: eq_bigr => j; rewrite inE => /eqP lj; rewrite mul_mx_diag !mxE lj mulr1.
  by [].
by rewrite inE => /negPf h; rewrite mul_mx_diag !mxE (_ : l 0 j = 0) ?mulr0 ?mul0r // l01 h.
Qed.
End Range.

(* the matrix L (x) 1 in the basis whose a-th group of n vectors is E a *)
Section Tensor.
Variables (F : rcfType) (N d n : nat).
Local Notation C := F[i].
Variable E : 'I_d -> 'M[C]_(N, n).
Definition orthoE := forall a b, dag (E a) *m E b = ((a == b)%:R)%:M.
Definition completeE := \sum_a E a *m dag (E a) = 1%:M.
Definition tens (L : 'M[C]_d) : 'M[C]_N := \sum_a \sum_b L a b *: (E a *m dag (E b)).
End Tensor.

Section Algebra.
Variables (F : rcfType) (N : nat).
Local Notation C := F[i].
Local Notation idf := [rmorphism of idfun].
Variable B : seq 'M[C]_N.
Definition in_alg (X : 'M[C]_N) : Prop := span (V := [lmodType C of 'M[C]_N]) idf B X.
Local Notation A := in_alg.
Hypotheses (A1 : A 1%:M) (AM : forall X Y, A X -> A Y -> A (X *m Y)) (Adag : forall X, A X -> A (dag X)).
Let AD X Y : A X -> A Y -> A (X + Y). Proof. exact: spanD. Qed.
Let AZ a X : A X -> A (a *: X). Proof. by move=> h; apply: (@spanZ _ _ idf _ B a X h). Qed.
Let AN X : A X -> A (- X). Proof. by rewrite -scaleN1r; apply: AZ. Qed.

Definition proj (p : 'M[C]_N) : Prop := [/\ A p, p *m p = p & dag p = p].
Definition minimal (p : 'M[C]_N) : Prop := [/\ proj p, p != 0 & forall X, A X -> exists c, p *m X *m p = c *: p].

Lemma proj_one : proj 1%:M. Proof. by split; rewrite ?mulmx1 ?dag1. Qed.
Lemma projB p q : proj p -> proj q -> p *m q = p -> proj (q - p).
Proof.
move=> [Ap pp dp] [Aq qq dq] pq; have qp : q *m p = p by rewrite -{1}dp -{1}dq -dag_mul pq.
by split; rewrite ?dagB ?dp ?dq //; [apply: AD; [|apply: AN]|rewrite mulmxBl !mulmxBr qq qp pq pp subrr subr0].
Qed.
Lemma rank_lt p q : proj p -> proj q -> p *m q = p -> p != q -> (\rank p < \rank q)%N.
Proof.
move=> [Ap pp dp] [Aq qq dq] pq ne; have qp : q *m p = p by rewrite -{1}dp -{1}dq -dag_mul pq.
have le : (p <= q)%MS by apply/submxP; exists p.
rewrite (ltn_leqif (mxrank_leqif_sup le)); apply: contra ne => /submxP [Y e].
have : q *m p = q by rewrite e -mulmxA pp.
by rewrite qp => ->.
Qed.

(* a projector below which the algebra does more than multiply by a number contains a smaller one *)
Lemma smaller p X : proj p -> A X -> dag X = X -> p *m X = X -> (forall c, X <> c *: p) ->
  exists q, [/\ proj q, q != 0, q *m p = q & q != p].
Proof.
move=> pP AX dX pX ns; have [Ap pp dp] := pP.
have p0 : p != 0 by apply/negP => /eqP z; apply: (ns 0); rewrite -pX z mul0mx scale0r.
have Xp : X *m p = X by rewrite -{1}dX -{1}dp -dag_mul pX.
have nX : normal X by rewrite /normal dX.
have [U uU [l E]] := spectral nX.
have [i ne] := level_meets l uU p0; set c := level _ _ _ in ne.
have Ac : A c.
  apply: (level_closed uU E) => [//|Y Z b hY hZ|Y hY]; [by apply: AD => //; apply: AZ|exact: AM].
have cp : c *m p = p *m c.
  pose T Y := (Y : 'M[C]_N) *m p = p *m Y.
  suff : T c by [].
  apply: (@level_closed _ _ _ _ _ uU E T) => [|Y Z b|Y]; rewrite /T; first by rewrite mulmx1 mul1mx.
    move=> hY hZ; by rewrite mulmxDl mulmxDr -scalemxAl -scalemxAr hY hZ.
  by move=> hY; rewrite -mulmxA hY !mulmxA Xp pX.
exists (c *m p); split=> //.
- have cc : c *m c = c by exact: level_sq.
  split; [exact: AM|by rewrite mulmxA -[c *m p *m c]mulmxA -cp mulmxA cc -mulmxA pp|].
  by rewrite dag_mul level_dag dp -cp.
- by rewrite -mulmxA pp.
apply/negP => /eqP e; apply: (ns (l 0 i)); rewrite -Xp -{1}e mulmxA (level_eigen E) -scalemxAl -/c e.
by [].
Qed.

(* the algebra below p, on the generators *)
Definition scalar_below (p X : 'M[C]_N) : bool := [exists i, exists j, (p i j != 0) && (p *m X *m p == ((p *m X *m p) i j / p i j) *: p)].
Lemma scalar_belowP p X : p != 0 -> reflect (exists c, p *m X *m p = c *: p) (scalar_below p X).
Proof.
move=> p0; apply: (iffP existsP) => [[i /existsP[j /andP[_ /eqP e]]]|[c e]]; first by eexists; exact: e.
case/matrix0Pn: p0 => i [j nz]; exists i; apply/existsP; exists j; rewrite nz e mxE mulfK // eqxx //.
Qed.

Lemma minimal_below q : proj q -> q != 0 -> exists2 p, minimal p & p *m q = p.
Proof.
elim: (\rank q).+1 {-2}q (ltnSn (\rank q)) => // r IH {}q; rewrite ltnS => rq pq q0; have [Aq qq dq] := pq.
have [al|/allPn [X XB ns]] := boolP (all (scalar_below q) B).
  exists q => //; split=> // X [f ->]; rewrite /comb.
  have h j : exists c, (j < size B)%N ==> (q *m B`_j *m q == c *: q).
    case: (ltnP j (size B)) => jB; last by exists 0.
    have /(scalar_belowP _ q0) [c e] := allP al _ (mem_nth 0 jB).
    by exists c; rewrite e eqxx.
  have [g gP] : exists g : nat -> C, forall j, (j < size B)%N -> q *m B`_j *m q = g j *: q.
    exists (fun j => xchoose (h j)) => j jB; have /implyP/(_ jB)/eqP := xchooseP (h j); exact.
  exists (\sum_(j < size B) f j * g j); rewrite mulmx_sumr mulmx_suml scaler_suml; apply: eq_bigr => j _.
  by rewrite -scalemxAr -scalemxAl gP // scalerA.
have AX : A X by rewrite -(nth_index 0 XB); apply: span_nth; rewrite index_mem.
(* the Hermitian or the antihermitian part is not a multiple of q *)
pose Y := q *m X *m q; have AY : A Y by apply: AM => //; apply: AM.
have qY : q *m Y = Y by rewrite /Y !mulmxA qq.
have Yq : Y *m q = Y by rewrite /Y -mulmxA qq.
have qdY : q *m dag Y = dag Y by rewrite -{1}dq -dag_mul Yq.
have nY c : Y <> c *: q by move=> e; case/negP: ns; apply/scalar_belowP => //; exists c.
have go Z : A Z -> dag Z = Z -> q *m Z = Z -> (forall c, Z <> c *: q) -> exists2 p, minimal p & p *m q = p.
  move=> AZ' dZ qZ nZ; have [p [pP p0 pq' ne]] := smaller pq AZ' dZ qZ nZ.
  have lt := rank_lt pP pq pq' ne.
  have [p' mp' e] := IH p (leq_trans lt rq) pP p0; exists p' => //.
  by rewrite -{1}e -mulmxA pq'.
pose isc (Z : 'M[C]_N) := [exists i, exists j, (q i j != 0) && (Z == (Z i j / q i j) *: q)].
have iscP Z : reflect (exists c, Z = c *: q) (isc Z).
  apply: (iffP existsP) => [[i /existsP[j /andP[_ /eqP e]]]|[c e]]; first by eexists; exact: e.
  case/matrix0Pn: (q0) => i [j nz]; exists i; apply/existsP; exists j; rewrite nz e mxE mulfK // eqxx //.
have [/iscP [a ea]|nh] := boolP (isc (Y + dag Y)); last first.
  apply: (go (Y + dag Y)).
  - by apply: AD => //; exact: Adag.
  - by rewrite dagD dagK addrC.
  - by rewrite mulmxDr qY qdY.
  - by move=> c e; case/negP: nh; apply/iscP; exists c.
have ii : 'i%C * 'i%C = -1 :> C by rewrite -expr2 sqr_i.
apply: (go ('i%C *: (Y - dag Y))).
- by apply: AZ; apply: AD => //; apply: AN; exact: Adag.
- have ci : conjc 'i%C = - 'i%C :> C by apply/eqP; rewrite eq_complex /= oppr0 !eqxx.
  by rewrite dagZ dagB dagK ci scaleNr -scalerN opprB.
- by rewrite -scalemxAr mulmxBr qY qdY.
move=> c e; apply: (nY (2%:R^-1 * (a - 'i%C * c))).
have two : 2%:R != 0 :> C by rewrite pnatr_eq0.
apply: (scalerI two); rewrite scalerA mulrA mulfV // mul1r scalerBl -ea -scalerA -e scalerA ii scaleN1r opprK.
by rewrite -[2%:R]/(1 + 1) scalerDl scale1r addrACA addrN addr0.
Qed.

Lemma decompose q : proj q -> exists ps : seq 'M[C]_N,
  [/\ forall p, List.In p ps -> minimal p,
      forall i j, (i < size ps)%N -> (j < size ps)%N -> i != j -> ps`_i *m ps`_j = 0 &
      \sum_(j < size ps) ps`_j = q].
Proof.
elim: (\rank q).+1 {-2}q (ltnSn (\rank q)) => // r IH {}q; rewrite ltnS => rq pq; have [Aq qq dq] := pq.
have [->|q0] := eqVneq q 0; first by exists [::]; split=> //; rewrite big_ord0.
have [p mp pq'] := minimal_below pq q0; have [pP p0 _] := mp; have [Ap pp dp] := pP.
have qp : q *m p = p by rewrite -{1}dp -{1}dq -dag_mul pq'.
have lt : (\rank (q - p)%R < \rank q)%N.
  apply: rank_lt => //; first exact: projB.
    by rewrite mulmxBl qq pq'.
  by rewrite -subr_eq0 addrAC subrr add0r oppr_eq0.
have [ps [mps ops sps]] := IH _ (leq_trans lt rq) (projB pP pq pq').
have ortho j : (j < size ps)%N -> p *m ps`_j = 0.
  move=> js; have [[_ jj dj] _ _] := mps _ (nth_In 0 js).
  have e : (q - p) *m ps`_j = ps`_j.
    rewrite -sps mulmx_suml (bigD1 (Ordinal js)) //= jj big1 ?addr0 // => i ne.
    by rewrite ops //; move: ne; rewrite -(inj_eq val_inj).
  by rewrite -e mulmxA mulmxBr pq' pp subrr mul0mx.
have ortho' j : (j < size ps)%N -> ps`_j *m p = 0.
  move=> js; have [[_ jj dj] _ _] := mps _ (nth_In 0 js).
  by rewrite -[LHS]dagK dag_mul dp dj ortho // dag0.
exists (p :: ps); split=> [p' [<- //|/mps //]||]; last by rewrite big_ord_recl /= sps addrCA subrr addr0.
move=> [|i] [|j] //= hi hj ne; [exact: ortho|exact: ortho'|exact: ops].
Qed.

(* ---- trivial centre ---- *)
Hypothesis centre : forall Z, A Z -> (forall X, A X -> Z *m X = X *m Z) -> exists c, Z = c%:M.

Lemma Asum (I : Type) (r : seq I) (P : pred I) (f : I -> 'M[C]_N) : (forall i, P i -> A (f i)) -> A (\sum_(i <- r | P i) f i).
Proof. by move=> h; exact: (@span_sum _ _ idf [lmodType C of 'M[C]_N] _ r P f B h). Qed.
Lemma Anth j : (j < size B)%N -> A B`_j.
Proof. by move=> h; apply: (@span_nth _ _ idf [lmodType C of 'M[C]_N] B j h). Qed.

Lemma linked p q : proj p -> proj q -> p != 0 -> q != 0 -> exists2 X, A X & q *m X *m p != 0.
Proof.
move=> [Ap pp dp] [Aq qq dq] p0 q0.
have [al|/allPn [X XB ne]] := boolP (all (fun X => q *m X *m p == 0) B); last first.
  by exists X => //; rewrite -(nth_index 0 XB); apply: Anth; rewrite index_mem.
case/negP: q0; apply/eqP.
have z j : (j < size B)%N -> q *m B`_j *m p = 0 by move=> js; apply/eqP; apply: (allP al); exact: mem_nth.
pose M := \sum_(j < size B) dag (B`_j) *m q *m B`_j.
have AMM : A M by apply: Asum => j _; apply: AM; [apply: AM => //; apply: Adag|]; apply: Anth.
have dM : dag M = M by rewrite /M dag_sum; apply: eq_bigr => j _; rewrite !dag_mul dagK dq mulmxA.
have nM : normal M by rewrite /normal dM.
have [U uU [l E]] := spectral nM; pose c := level l 0 U.
have Ac : A c.
  apply: (level_closed uU E) => [//|Y Z b hY hZ|Y hY]; [by apply: AD => //; apply: AZ|exact: AM].
have dc : dag c = c by exact: level_dag.
have Mc : M *m c = 0 by rewrite (level_eigen E) scale0r.
have c0 (Y : 'M[C]_N) : M *m Y = 0 -> c *m Y = Y by exact: (level0 uU E).
move: c Ac dc Mc c0 => c Ac dc Mc c0.
(* q Y c = 0 for everything in the algebra *)
have qbc j : (j < size B)%N -> q *m B`_j *m c = 0.
  move=> js; apply: tr_dag_eq0.
  have ge i : 0 <= \tr (dag (q *m B`_i *m c) *m (q *m B`_i *m c)).
    apply: sumr_ge0 => x _; rewrite mxE sumr_ge0 // => y _; by rewrite !mxE mulrC -sqr_normc exprn_ge0.
  have : \sum_(i < size B) \tr (dag (q *m B`_i *m c) *m (q *m B`_i *m c)) = 0.
    have h : \sum_(i < size B) (dag (q *m B`_i *m c) *m (q *m B`_i *m c)) = dag c *m (M *m c).
      rewrite /M mulmx_suml mulmx_sumr; apply: eq_bigr => i _.
      by rewrite !dag_mul dq -!mulmxA; congr (_ *m (_ *m _)); rewrite [q *m (q *m _)]mulmxA qq.
    by rewrite -raddf_sum /= h Mc mulmx0 mxtrace0.
  move/eqP; rewrite psumr_eq0 // => /allP /(_ (Ordinal js)) /=; rewrite mem_index_enum => /(_ isT)/eqP.
  by [].
have qYc Y : A Y -> q *m Y *m c = 0.
  case=> f ->; rewrite /comb mulmx_sumr mulmx_suml big1 // => j _.
  by rewrite -scalemxAr -scalemxAl qbc // scaler0.
have inv X : A X -> c *m X *m c = X *m c.
  move=> AX; rewrite -mulmxA c0 // /M mulmx_suml big1 // => j _.
  have -> : dag B`_j *m q *m B`_j *m (X *m c) = dag B`_j *m (q *m (B`_j *m X) *m c) by rewrite !mulmxA.
  by rewrite qYc ?mulmx0 //; apply: AM => //; apply: Anth.
have [k ck] : exists k, c = k%:M.
  apply: centre => // X AX; rewrite -[RHS]inv //.
  by have := congr1 (@dag F N N) (inv _ (Adag AX)); rewrite !dag_mul dagK dc mulmxA => ->.
have cp : c *m p = p.
  apply: c0; rewrite /M mulmx_suml big1 // => j _.
  by rewrite -!mulmxA [q *m _]mulmxA z // mulmx0.
have k0 : k != 0 by apply/negP => /eqP k0; move: cp p0; rewrite ck k0 mul_scalar_mx scale0r => <-; rewrite eqxx.
have := qYc _ A1; rewrite mulmx1 ck mul_mx_scalar => /eqP; rewrite scaler_eq0 (negPf k0) /= => /eqP //.
Qed.

(* a partial isometry between two minimal projectors *)
Lemma isometry p q : minimal p -> minimal q -> exists2 u, A u & dag u *m u = p /\ u *m dag u = q.
Proof.
move=> [pP p0 mp] [qP q0 mq]; have [Ap pp dp] := pP; have [Aq qq dq] := qP.
have [X AX ne] := linked pP qP p0 q0; set x := _ *m _ in ne.
have dx : dag x = p *m dag X *m q by rewrite /x !dag_mul dp dq mulmxA.
have [a ea] : exists a, dag x *m x = a *: p.
  have [a e] := mp (dag X *m q *m X) (AM (AM (Adag AX) Aq) AX); exists a.
  by rewrite -e dx /x !mulmxA -[_ *m q *m q]mulmxA qq.
have [b eb] : exists b, x *m dag x = b *: q.
  have [b e] := mq (X *m p *m dag X) (AM (AM AX Ap) (Adag AX)); exists b.
  by rewrite -e dx /x !mulmxA -[_ *m p *m p]mulmxA pp.
have xp : x *m p = x by rewrite /x -mulmxA pp.
have qx : q *m x = x by rewrite /x !mulmxA qq.
have ab : a = b.
  have : a *: x = b *: x by rewrite -{1}xp scalemxAr -ea mulmxA eb -scalemxAl qx.
  by move/eqP; rewrite -subr_eq0 -scalerBl scaler_eq0 (negPf ne) orbF subr_eq0 => /eqP.
have tge n (Y : 'M[C]_n) : 0 <= \tr (dag Y *m Y).
  by apply: sumr_ge0 => i _; rewrite mxE sumr_ge0 // => j _; rewrite !mxE mulrC -sqr_normc exprn_ge0.
have tp : 0 < \tr p.
  rewrite lt_def -{2}pp -{2}dp tge andbT; apply: contra p0 => /eqP t0; apply/eqP; apply: tr_dag_eq0.
  by rewrite dp pp.
have a0 : 0 < a.
  rewrite lt_def; apply/andP; split.
    by apply: contra ne => /eqP a0; apply/eqP; apply: tr_dag_eq0; rewrite ea a0 scale0r mxtrace0.
  by have := tge _ x; rewrite ea mxtraceZ pmulr_lge0.
exists ((sqrtc a)^-1 *: x); first by apply: AZ; rewrite /x; apply: AM => //; apply: AM.
rewrite dagZ -!scalemxAl -!scalemxAr !scalerA [conjc _ * _]mulrC sqrtc_norm gtr0_norm // ea eb -ab.
by rewrite !scalerA mulVf ?scale1r // gt_eqF.
Qed.

Theorem factor : (0 < N)%N -> exists d n (E : 'I_d -> 'M[C]_(N, n)),
  [/\ (0 < d)%N, (0 < n)%N, orthoE E, completeE E & forall X, A X <-> exists L, X = tens E L].
Proof.
move=> N0; have [ps [mps ops sps]] := decompose proj_one; pose d := size ps.
have d0 : (0 < d)%N.
  rewrite lt0n; apply/negP; rewrite size_eq0 => /eqP e; move: sps; rewrite e big_ord0 => /esym/matrixP.
  by move=> /(_ (Ordinal N0) (Ordinal N0))/eqP; rewrite !mxE eqxx oner_eq0.
have mi (i : 'I_d) : minimal ps`_i by apply: mps; exact: nth_In.
pose p0 := ps`_0; have mp0 : minimal p0 by exact: (mi (Ordinal d0)).
have [[Ap pp dp] pn0 sc] := mp0; have [n [W WW pE]] := range_basis pp dp.
have n0 : (0 < n)%N.
  by case: n W WW pE => // W _ e; move: pn0; rewrite -e (_ : W = 0) ?mul0mx ?eqxx //; apply/matrixP => i [].
have [u hu] := fin_all_exists (fun i : 'I_d => let: ex_intro2 x a b := isometry mp0 (mi i) in ex_intro (fun x => A x /\ (dag x *m x = p0 /\ x *m dag x = ps`_i)) x (conj a b)).
have up i : u i *m p0 = u i.
  have [_ [e _]] := hu i; apply/eqP; rewrite -subr_eq0; apply/eqP; apply: tr_dag_eq0.
  rewrite (_ : _ *m _ = 0) ?mxtrace0 // dagB dag_mul dp mulmxBl !mulmxBr -![_ *m _ *m (_ *m p0)]mulmxA.
  by rewrite [dag (u i) *m (u i *m _)]mulmxA -[p0 *m _ *m u i]mulmxA e !pp !subrr.
have pu i : p0 *m dag (u i) = dag (u i) by rewrite -{1}dp -dag_mul up.
have qu (i : 'I_d) : ps`_i *m u i = u i by have [_ [e <-]] := hu i; rewrite -mulmxA e up.
have uq (i : 'I_d) : dag (u i) *m ps`_i = dag (u i).
  by have [[_ _ di] _ _] := mi i; rewrite -{1}di -dag_mul qu.
pose E i := u i *m W; exists d, n, E.
have EE a b : E a *m dag (E b) = u a *m dag (u b) by rewrite /E dag_mul mulmxA -[u a *m W *m _]mulmxA pE up.
split=> //.
- move=> a b; rewrite /E dag_mul mulmxA -[_ *m dag (u a) *m _]mulmxA.
  case: eqVneq => [->|ne].
    by have [_ [-> _]] := hu b; rewrite -pE mulmxA WW mul1mx WW.
  have -> : dag (u a) *m u b = 0.
    by rewrite -uq -[u b]qu -mulmxA [ps`_a *m _]mulmxA ops ?mul0mx ?mulmx0.
  rewrite mulmx0 mul0mx.
  by apply/matrixP => x y; rewrite !mxE mul0rn.
- by rewrite /completeE -sps; apply: eq_bigr => a _; rewrite EE; have [_ []] := hu a.
move=> X; split=> [AX|[L ->]]; last first.
  by apply: Asum => a _; apply: Asum => b _; rewrite EE; apply: AZ; apply: AM; [|apply: Adag]; apply: (Logic.proj1 (hu _)).
have [L hL] := fin_all_exists (fun ab : 'I_d * 'I_d => sc (dag (u ab.1) *m X *m u ab.2) (AM (AM (Adag (Logic.proj1 (hu ab.1))) AX) (Logic.proj1 (hu ab.2)))).
exists (\matrix_(a, b) L (a, b)).
rewrite -{1}[X]mul1mx -{1}sps -[LHS]mulmx1 -{1}sps mulmx_suml mulmx_suml; apply: eq_bigr => a _.
rewrite mulmx_sumr; apply: eq_bigr => b _; rewrite mxE EE.
have [_ [_ <-]] := hu a; have [_ [_ <-]] := hu b.
have := congr1 (fun Z => u a *m Z *m dag (u b)) (hL (a, b)); rewrite /= -scalemxAr -scalemxAl up => <-.
by rewrite !mulmxA up -!mulmxA pu.
Qed.
End Algebra.
