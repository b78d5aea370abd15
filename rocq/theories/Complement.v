(* Orthonormal bases of the row span of a real matrix: what
   nullspace(A, return_complement=True)[1] returns when the singular values are
   zero or above the tolerance (qsymm/linalg.py:259-274, C26_orthonormal and
   C27_complement_real).  Gram-Schmidt shows that such a routine exists. *)
From mathcomp Require Import all_ssreflect all_algebra.
From Verif Require Import Prelude LinSpan NullSpec.

Set Implicit Arguments.
Unset Strict Implicit.
Unset Printing Implicit Defensive.
Import Order.TTheory GRing.Theory Num.Theory.
Local Open Scope ring_scope.

Section Complement.
Variable F : rcfType.
Local Notation id_ := [rmorphism of idfun].

Definition dot N (u v : 'rV[F]_N) : F := \sum_j u 0 j * v 0 j.
Definition orthonormal_rows N (X : seq 'rV[F]_N) : Prop :=
  forall i j, (i < size X)%N -> (j < size X)%N -> dot X`_i X`_j = (i == j)%:R.
Definition exact_complement (cs : forall N, seq 'rV[F]_N -> seq 'rV[F]_N) : Prop :=
  forall N (A : seq 'rV[F]_N), orthonormal_rows (cs N A) /\
    forall v, span id_ (cs N A) v <-> span id_ A v.

Section OneN.
Variable N : nat.
Implicit Types (u v w : 'rV[F]_N) (X A : seq 'rV[F]_N).
Lemma dotC u v : dot u v = dot v u. Proof. by apply: eq_bigr => j _; rewrite mulrC. Qed.
Lemma dotDl u v w : dot (u + v) w = dot u w + dot v w.
Proof. by rewrite -big_split; apply: eq_bigr => j _; rewrite mxE mulrDl. Qed.
Lemma dotZl a v w : dot (a *: v) w = a * dot v w.
Proof. by rewrite mulr_sumr; apply: eq_bigr => j _; rewrite mxE mulrA. Qed.
Lemma dotNl v w : dot (- v) w = - dot v w. Proof. by rewrite -scaleN1r dotZl mulN1r. Qed.
Lemma dot0l w : dot 0 w = 0. Proof. by rewrite -(scale0r 0) dotZl mul0r. Qed.
Lemma dotDr u v w : dot w (u + v) = dot w u + dot w v. Proof. by rewrite dotC dotDl !(dotC w). Qed.
Lemma dotZr a v w : dot w (a *: v) = a * dot w v. Proof. by rewrite dotC dotZl dotC. Qed.
Lemma dotNr v w : dot w (- v) = - dot w v. Proof. by rewrite dotC dotNl dotC. Qed.
Lemma dotBl u v w : dot (u - v) w = dot u w - dot v w. Proof. by rewrite dotDl dotNl. Qed.
Lemma dot0r w : dot w 0 = 0. Proof. by rewrite dotC dot0l. Qed.
Lemma dot_suml (I : Type) (r : seq I) (f : I -> 'rV[F]_N) w : dot (\sum_(x <- r) f x) w = \sum_(x <- r) dot (f x) w.
Proof. by elim: r => [|a r IH]; rewrite ?big_nil ?dot0l // !big_cons dotDl IH. Qed.
Lemma dot_ge0 v : 0 <= dot v v. Proof. by apply: sumr_ge0 => j _; rewrite -expr2 sqr_ge0. Qed.
Lemma dot_eq0 v : (dot v v == 0) = (v == 0).
Proof.
apply/eqP/eqP => [|->]; last by rewrite dot0l.
move=> E; apply/rowP => j; rewrite mxE; apply/eqP; move/eqP: E.
rewrite psumr_eq0 => [|k _]; last by rewrite -expr2 sqr_ge0.
by move=> /allP /(_ j (mem_index_enum j)); rewrite /= -expr2 sqrf_eq0.
Qed.
Lemma dot_combl X c w : dot (comb id_ X c) w = \sum_(j < size X) c j * dot X`_j w.
Proof. by rewrite dot_suml; apply: eq_bigr => j _; rewrite dotZl. Qed.

(* a vector orthogonal to A and in its span vanishes *)
Lemma ortho_span A v : (forall r, List.In r A -> dot r v = 0) -> forall w, span id_ A w -> dot w v = 0.
Proof.
move=> H w [c ->]; rewrite dot_combl big1 // => j _; rewrite H ?mulr0 //.
exact: nth_In.
Qed.
Lemma ortho_span0 A v : (forall r, List.In r A -> dot r v = 0) -> span id_ A v -> v = 0.
Proof. by move=> H /(ortho_span H) /eqP; rewrite dot_eq0 => /eqP. Qed.

(* projection on the span of orthonormal vectors *)
Definition project X v : 'rV[F]_N := \sum_(u <- X) dot v u *: u.
Lemma projectE X v : project X v = comb id_ X (fun j => dot v X`_j).
Proof. by rewrite /project (big_nth 0) big_mkord. Qed.
Lemma project_span X v : span id_ X (project X v).
Proof. by rewrite projectE; eexists. Qed.
Lemma project_dot X v i : orthonormal_rows X -> (i < size X)%N -> dot (project X v) X`_i = dot v X`_i.
Proof.
move=> O li; rewrite projectE dot_combl (bigD1 (Ordinal li)) //= O // eqxx mulr1 big1 ?addr0 // => j.
by rewrite -(inj_eq val_inj) /= => /negPf ne; rewrite O // ne mulr0.
Qed.
Lemma project_ortho X v : orthonormal_rows X -> forall r, List.In r X -> dot r (v - project X v) = 0.
Proof.
move=> O r /(In_nth 0) [j lj ->].
by rewrite dotDr dotNr -!(dotC _ X`_j) project_dot ?subrr.
Qed.
Lemma span_In A r : List.In r A -> span id_ A r.
Proof. by move=> /(In_nth 0) [j lj ->]; exists (fun i => (i == j)%:R); rewrite comb_delta. Qed.
Lemma project_fix X v : orthonormal_rows X -> span id_ X v <-> project X v = v.
Proof.
move=> O; split=> [S|<-]; last exact: project_span.
apply/eqP; rewrite eq_sym -subr_eq0; apply/eqP; apply: (ortho_span0 (project_ortho v O)).
apply: spanD => //; have [c ->] := project_span X v; exists (fun j => - c j); by rewrite combN.
Qed.
Lemma project0 X v : orthonormal_rows X -> v - project X v = 0 <-> span id_ X v.
Proof. by move=> O; rewrite (project_fix v O); split=> [/eqP|->]; rewrite ?subrr // subr_eq0 => /eqP. Qed.

Lemma orthonormal_indep X : orthonormal_rows X -> indep id_ X.
Proof.
move=> O c E i li; have := dot_combl X c X`_i; rewrite E dot0l (bigD1 (Ordinal li)) //= O // eqxx mulr1.
rewrite big1 ?addr0 // => j; rewrite -(inj_eq val_inj) /= => /negPf ne; by rewrite O // ne mulr0.
Qed.

(* decomposition along the row span and the null space *)
Lemma decompose A X v : orthonormal_rows X -> (forall w, span id_ X w <-> span id_ A w) ->
  exists w, span id_ X w /\ forall r, List.In r A -> dot r (v - w) = 0.
Proof.
move=> O S; exists (project X v); split; first exact: project_span.
by move=> r /span_In /S; apply: ortho_span; apply: project_ortho.
Qed.

(* Gram-Schmidt *)
Fixpoint gram_schmidt (done : seq 'rV[F]_N) A : seq 'rV[F]_N :=
  if A is v :: A' then
    let u := v - project done v in
    if u == 0 then gram_schmidt done A'
    else gram_schmidt (rcons done ((Num.sqrt (dot u u))^-1 *: u)) A'
  else done.
Lemma gram_schmidtP A done : orthonormal_rows done ->
  orthonormal_rows (gram_schmidt done A) /\ forall w, span id_ (gram_schmidt done A) w <-> span id_ (done ++ A) w.
Proof.
elim: A done => [|v A IH] done O /=; first by rewrite cats0.
have in_cat X Y w : span id_ X w -> span id_ (X ++ Y) w.
  move=> [c ->]; exists (fun j => if (j < size X)%N then c j else 0); rewrite comb_cat.
  rewrite [X in _ + X](_ : _ = 0) ?addr0.
    by apply: eq_comb => j ->.
  by rewrite -[RHS](comb0 id_ Y); apply: eq_comb => j _; rewrite ltnNge leq_addr.
have span_sub X Y : (forall r, List.In r X -> span id_ Y r) -> forall w, span id_ X w -> span id_ Y w.
  move=> H w [c ->]; rewrite /comb; elim/big_ind: _ => [|x y|j _]; first exact: span0.
    exact: spanD.
  by have [d ->] := H _ (nth_In 0 (ltn_ord j)); exists (fun i => c j * d i); rewrite combZ.
have mid X Y x w : span id_ X x -> span id_ (X ++ Y) w <-> span id_ (X ++ x :: Y) w.
  move=> Sx; split; apply: span_sub => r /In_cat [h|].
  - by apply: in_cat; apply: span_In.
  - by move=> h; apply: span_In; apply/In_cat; right; right.
  - by apply: in_cat; apply: span_In.
  - by case=> [<-|h]; [apply: in_cat|apply: span_In; apply/In_cat; right].
case: eqP => [u0|/eqP u0].
  have [O' H] := IH _ O; split=> // w; rewrite H; apply: mid; exact/(project0 v O).
set u := v - project done v in u0 *; set s := Num.sqrt (dot u u).
have s0 : s != 0 by rewrite sqrtr_eq0 -ltNge lt_neqAle eq_sym dot_eq0 u0 dot_ge0.
have ss : s * s = dot u u by rewrite -expr2 sqr_sqrtr ?dot_ge0.
have ou r : List.In r done -> dot r u = 0 by apply: project_ortho.
have O1 : orthonormal_rows (rcons done (s^-1 *: u)).
  move=> i j; rewrite size_rcons !ltnS !nth_rcons => li lj.
  case: (ltngtP i (size done)) li => // hi _; case: (ltngtP j (size done)) lj => // hj _.
  - exact: O.
  - by rewrite dotZr ou ?mulr0 ?hj ?(ltn_eqF hi) //; apply: nth_In.
  - by rewrite dotZl dotC ou ?mulr0 ?hi ?(gtn_eqF hj) //; apply: nth_In.
  - by rewrite hi hj eqxx dotZl dotZr -ss mulKf // mulVf.
have [O' H] := IH _ O1; split=> // w; rewrite H cat_rcons.
have su X : span id_ X v -> (forall r, List.In r done -> span id_ X r) -> span id_ X (s^-1 *: u).
  move=> Sv Sd; have Su : span id_ X u.
    apply: spanD => //; have : span id_ X (project done v) by apply: span_sub (project_span _ _).
    by move=> [c ->]; exists (fun j => - c j); rewrite combN.
  by case: Su => c ->; exists (fun j => s^-1 * c j); rewrite combZ.
split; apply: span_sub => r /In_cat [h|].
- by apply: in_cat; apply: span_In.
- case=> [<-|h]; last by apply: span_In; apply/In_cat; right; right.
  apply: su; first by apply: span_In; apply/In_cat; right; left.
  by move=> r' h; apply: in_cat; apply: span_In.
- by apply: in_cat; apply: span_In.
- case=> [<-|h]; last by apply: span_In; apply/In_cat; right; right.
  have -> : v = s *: (s^-1 *: u) + project done v by rewrite scalerA mulfV // scale1r subrK.
  apply: spanD; last by apply: in_cat; apply: project_span.
  have [c Ec] : span id_ (done ++ s^-1 *: u :: A) (s^-1 *: u) by apply: span_In; apply/In_cat; right; left.
  by exists (fun j => s * c j); rewrite combZ -Ec.
Qed.
End OneN.

Lemma gram_schmidt_exact : exact_complement (fun N => @gram_schmidt N [::]).
Proof. by move=> N A; apply: gram_schmidtP. Qed.
End Complement.
