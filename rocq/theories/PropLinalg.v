(* C23, C24, C25: matrix_basis and solve_mat_eqn. *)
From mathcomp Require Import all_ssreflect all_algebra.
From mathcomp Require Import complex realalg.
From Verif Require Import Prelude PGE PGEProofs LinSpan NullSpec Linalg MatBasisProofs.

Set Implicit Arguments.
Unset Strict Implicit.
Unset Printing Implicit Defensive.
Import GRing.Theory Num.Theory.
Local Open Scope ring_scope.
Local Open Scope complex_scope.


Lemma In_flatten_map A B (f : A -> seq B) (s : seq A) y :
  List.In y (flatten [seq f x | x <- s]) <-> exists2 x, List.In x s & List.In y (f x).
Proof.
elim: s => [|a s IH] /=; first by split=> // -[].
rewrite In_cat IH; split=> [[h|[x h1 h2]]|[x [<-|h1] h2]].
- by exists a; [left|].
- by exists x; [right|].
- by left.
- by right; exists x.
Qed.

Section Solve.
Variable F : rcfType.
Local Notation C := F[i].
Local Notation rc := [rmorphism of real_complex F].
Local Notation idf := [rmorphism of idfun].
Variables (nsR : forall N, seq 'rV[F]_N -> seq 'rV[F]_N) (nsC : forall N, seq 'rV[C]_N -> seq 'rV[C]_N).
Hypotheses (nsR_ok : exact_nullspace nsR) (nsC_ok : exact_nullspace nsC).
Variable d : nat.
Implicit Types (HL HR : seq 'M[C]_d) (X : 'M[C]_d).
Local Notation q0 := (false, (0 : 'M[C]_d, 0 : 'M[C]_d)).

(* the equations that X has to satisfy *)
Definition solves HL HR (conjugate : seq bool) X : Prop :=
  forall i, (i < size HL)%N -> X *m HL`_i = HR`_i *m (if nth false conjugate i then mxconj X else X).

Lemma In_null_mat (B : seq 'M[C]_d) eqns r : List.In r (null_mat B eqns) <->
  exists2 q, List.In q eqns & exists a b, r = \row_j eqn_side q.1 q.2.1 q.2.2 B`_j a b.
Proof.
rewrite In_flatten_map; split=> -[q mq]; [move/In_allpairs|] => -[a [b H]].
  by exists q => //; exists a, b; case: H => _ _ ->.
exists q => //; apply/In_allpairs; exists a, b; split=> //; apply/In_mem; exact: mem_enum.
Qed.

(* complex coefficients *)
Lemma null_complex (B : seq 'M[C]_d) eqns (L : bool * ('M[C]_d * 'M[C]_d) -> {linear 'M[C]_d -> 'M[C]_d})
    (v : 'rV[C]_(size B)) :
  (forall q b, List.In b B -> L q b = eqn_side q.1 q.2.1 q.2.2 b) ->
  (forall r, List.In r (null_mat B eqns) -> \sum_j r 0 j * v 0 j = 0) <->
  (forall q, List.In q eqns -> L q (combr idf B v) = 0).
Proof.
move=> LB.
have E q a b : L q (combr idf B v) a b = \sum_j (\row_j eqn_side q.1 q.2.1 q.2.2 B`_j a b) 0 j * v 0 j.
  rewrite /combr raddf_sum summxE; apply: eq_bigr => j _.
  rewrite -[LHS]/(L q (v 0 j *: B`_j) a b) linearZ LB; last exact: nth_In.
  by rewrite !mxE mulrC.
split=> [H q mq|H r /In_null_mat [q mq [a [b ->]]]].
  apply/matrixP => a b; rewrite E H ?mxE //; apply/In_null_mat; exists q => //; by exists a, b.
by rewrite -E H // mxE.
Qed.

(* real coefficients *)
Lemma Re_mulr (z : C) (x : F) : complex.Re (x%:C * z) = x * complex.Re z.
Proof. by case: z => a b /=; rewrite mul0r subr0. Qed.
Lemma Im_mulr (z : C) (x : F) : complex.Im (x%:C * z) = x * complex.Im z.
Proof. by case: z => a b /=; rewrite mul0r addr0. Qed.

Lemma null_real (B : seq 'M[C]_d) eqns (v : 'rV[F]_(size B)) :
  (forall r, List.In r (real_imag (null_mat B eqns)) -> \sum_j r 0 j * v 0 j = 0) <->
  (forall q, List.In q eqns -> eqn_side q.1 q.2.1 q.2.2 (combr rc B v) = 0).
Proof.
have E (q : bool * ('M[C]_d * 'M[C]_d)) : eqn_side q.1 q.2.1 q.2.2 (combr rc B v) =
    \sum_j (v 0 j)%:C *: eqn_side q.1 q.2.1 q.2.2 B`_j.
  rewrite /combr /eqn_side.
  have -> : (if q.1 then mxconj (\sum_j (v 0 j)%:C *: B`_j) else \sum_j (v 0 j)%:C *: B`_j) =
            \sum_j (v 0 j)%:C *: (if q.1 then mxconj B`_j else B`_j).
    case: q.1 => //; rewrite mxconj_sum; apply: eq_bigr => j _.
    by rewrite mxconjZ conjc_real.
  rewrite mulmx_suml mulmx_sumr -sumrB; apply: eq_bigr => j _.
  by rewrite -scalemxAl -scalemxAr scalerBr.
have ReE q a b : complex.Re (eqn_side q.1 q.2.1 q.2.2 (combr rc B v) a b) =
   \sum_j (map_mx (@complex.Re F) (\row_j eqn_side q.1 q.2.1 q.2.2 B`_j a b)) 0 j * v 0 j.
  rewrite E summxE raddf_sum; apply: eq_bigr => j _; rewrite -[LHS]/(complex.Re (((v 0 j)%:C *: eqn_side q.1 q.2.1 q.2.2 B`_j) a b)).
  rewrite [(_ *: eqn_side _ _ _ _) a b]mxE Re_mulr mulrC; congr (_ * _).
  by rewrite [RHS]mxE [in RHS]mxE.
have ImE q a b : complex.Im (eqn_side q.1 q.2.1 q.2.2 (combr rc B v) a b) =
   \sum_j (map_mx (@complex.Im F) (\row_j eqn_side q.1 q.2.1 q.2.2 B`_j a b)) 0 j * v 0 j.
  rewrite E summxE raddf_sum; apply: eq_bigr => j _; rewrite -[LHS]/(complex.Im (((v 0 j)%:C *: eqn_side q.1 q.2.1 q.2.2 B`_j) a b)).
  rewrite [(_ *: eqn_side _ _ _ _) a b]mxE Im_mulr mulrC; congr (_ * _).
  by rewrite [RHS]mxE [in RHS]mxE.
split=> [H q mq|H r].
  have [re im] : (forall a b, complex.Re (eqn_side q.1 q.2.1 q.2.2 (combr rc B v) a b) = 0) /\
                 (forall a b, complex.Im (eqn_side q.1 q.2.1 q.2.2 (combr rc B v) a b) = 0).
    split=> a b; rewrite ?ReE ?ImE; apply: H; apply/In_cat; [left|right]; apply/In_map_iff;
    (eexists; last by []); apply/In_null_mat; exists q => //; by exists a, b.
  apply/matrixP => a b; rewrite [RHS]mxE; move: (re a b) (im a b).
  by case: (eqn_side _ _ _ _ _ _) => x y /= -> ->.
case/In_cat=> /In_map_iff [s /In_null_mat [q mq [a [b ->]]] ->].
  by rewrite -ReE H // mxE.
by rewrite -ImE H // mxE.
Qed.

Lemma eqns_solves HL HR conjugate X : size HL = size HR -> size conjugate = size HL ->
  (forall q, List.In q (zip conjugate (zip HL HR)) -> eqn_side q.1 q.2.1 q.2.2 X = 0) <->
  solves HL HR conjugate X.
Proof.
move=> s1 s2; have sz : size (zip HL HR) = size HL by rewrite size1_zip // s1.
have sz' : size (zip conjugate (zip HL HR)) = size HL by rewrite size1_zip // sz s2.
split=> [H i li|H q mq].
  have mq : List.In (nth q0 (zip conjugate (zip HL HR)) i) (zip conjugate (zip HL HR)).
    by apply: nth_In; rewrite sz'.
  have := H _ mq; rewrite nth_zip ?sz // nth_zip //= /eqn_side => /eqP.
  by rewrite subr_eq0 => /eqP.
have [i li ->] := In_nth q0 mq; rewrite sz' in li; rewrite nth_zip ?sz // nth_zip //= /eqn_side (H i li).
by rewrite subrr.
Qed.

Lemma solve_shape HL HR herm tl conjugate : (0 < d)%N -> (0 < size HL)%N ->
  size HL = size HR -> size conjugate = size HL ->
  solve_mat_eqn nsR nsC HL HR herm tl conjugate =
  (if (d == 1%N) && tl then Ok [::] else
   let B := matrix_basis d tl false false in
   let A := null_mat B (zip conjugate (zip HL HR)) in
   Ok (if herm then [seq combr rc B v | v <- nsR (real_imag A)] else [seq combr idf B v | v <- nsC A])).
Proof.
rewrite /solve_mat_eqn; case: HL => // h HL d0 _ <- ->; rewrite !eqxx /=.
have -> : (d * d - tl == 0)%N = (d == 1%N) && tl.
  by case: d d0 => // -[|d'] //; case: tl.
by case: (_ && _) => //; case: herm.
Qed.

Lemma mx1_traceless X : d = 1%N -> \tr X = 0 -> X = 0.
Proof.
move=> E; move: X; rewrite E => X; rewrite [X]mx11_scalar mxtrace_scalar mulr1n => ->.
by rewrite raddf0.
Qed.

(* C24: Hermitian solutions, with any pattern of conjugations *)
Theorem C24_solve_hermitian HL HR tl conjugate : (0 < d)%N -> (0 < size HL)%N ->
  size HL = size HR -> size conjugate = size HL ->
  exists2 Xs, solve_mat_eqn nsR nsC HL HR true tl conjugate = Ok Xs &
    is_basis rc Xs (fun X => [/\ dagger X = X, (tl -> \tr X = 0) & solves HL HR conjugate X]).
Proof.
move=> d0 h0 s1 s2; rewrite solve_shape //; case: ifP => [/andP [/eqP d1 t]|_].
  exists [::] => //; split=> // X; split=> [[_ /(_ t) t0 _]|[c ->]].
    by exists (fun=> 0); rewrite comb_nil; apply: mx1_traceless.
  rewrite comb_nil; split=> [|_|i _]; rewrite ?dagger0 ?raddf0 // mul0mx.
  by case: ifP; rewrite ?mxconj0 mulmx0.
eexists; first by [].
have := @compose_basis _ _ rc _ (matrix_basis d tl false false) (nsR (real_imag _)) _ 
  (solves HL HR conjugate) (C23_matrix_basis F d tl false false).
move=> H; apply: eq_basis (H _ _) => [X|]; last first.
  by apply: eq_basis (nsR_ok _) => v; rewrite null_real eqns_solves.
by split=> [[[h1 _ h2] h3]|[h1 h2 h3]].
Qed.

(* What is solved without hermitian=True: the conjugate is replaced by the transpose. *)
Theorem C25_transpose_is_solved HL HR tl conjugate : (0 < d)%N -> (0 < size HL)%N ->
  size HL = size HR -> size conjugate = size HL ->
  exists2 Xs, solve_mat_eqn nsR nsC HL HR false tl conjugate = Ok Xs &
    is_basis idf Xs (fun X => (tl -> \tr X = 0) /\ forall i, (i < size HL)%N ->
      X *m HL`_i = HR`_i *m (if nth false conjugate i then X^T else X)).
Proof.
move=> d0 h0 s1 s2; rewrite solve_shape //; case: ifP => [/andP [/eqP d1 t]|_].
  exists [::] => //; split=> // X; split=> [[/(_ t) t0 _]|[c ->]].
    by exists (fun=> 0); rewrite comb_nil; apply: mx1_traceless.
  by rewrite comb_nil; split=> [_|i _]; [rewrite raddf0 | rewrite mul0mx trmx0 if_same mulmx0].
eexists; first by [].
pose Lf (q : bool * ('M[C]_d * 'M[C]_d)) X := X *m q.2.1 - q.2.2 *m (if q.1 then X^T else X).
have linL q : linear (Lf q).
  move=> a X Y; rewrite /Lf mulmxDl -scalemxAl.
  have -> : (if q.1 then (a *: X + Y)^T else a *: X + Y) =
            a *: (if q.1 then X^T else X) + (if q.1 then Y^T else Y).
    by case: q.1 => //; rewrite raddfD /= linearZ.
  by rewrite mulmxDr -scalemxAr scalerBr opprD addrACA.
pose L q := Linear (linL q).
set B := matrix_basis _ _ _ _.
have LB q b : List.In b B -> L q b = eqn_side q.1 q.2.1 q.2.2 b.
  move=> mb; have [hb _ _] := @C23_members F d tl false false b mb; rewrite /= /Lf /eqn_side; case: q.1 => //.
  by have -> : mxconj b = b^T by rewrite -{1}hb mxconjK.
pose Q X := forall q, List.In q (zip conjugate (zip HL HR)) -> L q X = 0.
have H := @compose_basis _ _ idf _ B (nsC (null_mat B (zip conjugate (zip HL HR)))) _ Q
  (C23_complex_span F d tl false).
apply: eq_basis (H _) => [X|]; last first.
  by apply: eq_basis (nsC_ok _) => v; apply: null_complex.
have sz : size (zip HL HR) = size HL by rewrite size1_zip // s1.
have sz' : size (zip conjugate (zip HL HR)) = size HL by rewrite size1_zip // sz s2.
split=> -[h1 h2]; split=> // i li.
  have mq : List.In (nth q0 (zip conjugate (zip HL HR)) i) (zip conjugate (zip HL HR)).
    by apply: nth_In; rewrite sz'.
  have := h2 _ mq; rewrite nth_zip ?sz // nth_zip //= /Lf => /eqP.
  by rewrite subr_eq0 => /eqP.
have [j lj ->] := In_nth q0 li; rewrite sz' in lj; rewrite nth_zip ?sz // nth_zip //= /Lf (h2 j lj).
by rewrite subrr.
Qed.

(* C24: all solutions, without conjugation *)
Theorem C24_solve_general HL HR tl : (0 < d)%N -> (0 < size HL)%N -> size HL = size HR ->
  exists2 Xs, solve_mat_eqn nsR nsC HL HR false tl (nseq (size HL) false) = Ok Xs &
    is_basis idf Xs (fun X => (tl -> \tr X = 0) /\ forall i, (i < size HL)%N -> X *m HL`_i = HR`_i *m X).
Proof.
move=> d0 h0 s1; have [Xs E H] := C25_transpose_is_solved tl d0 h0 s1 (size_nseq (size HL) false).
exists Xs => //; apply: eq_basis H => X.
by split=> -[h1 h2]; split=> // i li; have := h2 i li; rewrite nth_nseq li.
Qed.

(* inputs of different lengths are rejected *)
Theorem C24_rejects HL HR herm tl conjugate :
  ~~ [&& size HL != 0%N, size HL == size HR & size conjugate == size HL] ->
  exists e, solve_mat_eqn nsR nsC HL HR herm tl conjugate = Err e.
Proof.
rewrite /solve_mat_eqn; case: HL => [|h HL] /=; first by exists IndexError.
by case: eqP => _ /=; [case: eqP => //= _|]; exists ValueError.
Qed.

End Solve.

(* C25: X = i solves X * 1 = -1 * X.conj() but is not in the span of what is returned *)
Theorem C25_conjugate_refuted (F : rcfType) : exists2 X : 'M[F[i]]_1, X *m 1%:M = - 1%:M *m mxconj X &
  forall (nR : forall N, seq 'rV[F]_N -> seq 'rV[F]_N) (nC : forall N, seq 'rV[F[i]]_N -> seq 'rV[F[i]]_N),
  exact_nullspace nR -> exact_nullspace nC ->
  exists2 Xs, solve_mat_eqn nR nC [:: 1%:M] [:: - 1%:M] false false [:: true] = Ok Xs &
    ~ span [rmorphism of idfun] Xs X.
Proof.
exists ('i : F[i])%:M.
  rewrite mulmx1 mulNmx mul1mx /mxconj map_scalar_mx /= -raddfN /=; congr (_%:M).
  by simpc.
move=> nR nC _ okC.
have [Xs E [_ H]] := @C25_transpose_is_solved F nR nC okC 1 [:: 1%:M] [:: - 1%:M] false [:: true] erefl erefl erefl erefl.
exists Xs => // /H [_ /(_ 0%N erefl)] /=.
rewrite mulmx1 mulNmx mul1mx tr_scalar_mx -raddfN /= => /matrixP /(_ 0 0) /eqP.
rewrite !mxE eqxx !mulr1n -addr_eq0 -mulr2n mulrn_eq0 /= eq_complex /= oner_eq0 andbF //.
Qed.

(* A basis of the Hermitian 2 x 2 matrices: the diagonal units, sigma_x and -sigma_y. *)
Example C23_example (F : rcfType) : matrix_basis 2 false false false =
  [:: (1 : F[i]) *: delta_mx ord0 ord0; 1 *: delta_mx ord_max ord_max;
      1 *: (delta_mx ord0 ord_max + delta_mx ord_max ord0);
      1 *: ('i *: delta_mx ord0 ord_max - 'i *: delta_mx ord_max ord0)].
Proof.
have E : enum 'I_2 = [:: ord0; ord_max].
  by apply: (inj_map val_inj); rewrite val_enum_ord.
by rewrite /matrix_basis /combinations2 /= E.
Qed.

(* The solutions of X sz = sz X are the diagonal matrices: sx is not one of them. *)
Example C24_example (F : rcfType) (sz := delta_mx 0 0 - delta_mx 1 1 : 'M[F[i]]_2) :
  exists2 Xs, solve_mat_eqn (@ker_rows F) (@ker_rows [fieldType of F[i]]) [:: sz] [:: sz] true true [:: false] = Ok Xs &
    span [rmorphism of real_complex F] Xs sz /\
    ~ span [rmorphism of real_complex F] Xs (delta_mx 0 1 + delta_mx 1 0).
Proof.
have [Xs E [_ H]] := @C24_solve_hermitian F _ (@ker_rows [fieldType of F[i]])
  (@ker_rows_exact F) 2 [:: sz] [:: sz] true [:: false] erefl erefl erefl erefl.
exists Xs => //; split.
  apply/H; split=> [|_|[|i] //].
    apply/matrixP => a b; rewrite !mxE.
    by case: a b => [[|[|a]] la] [[|[|b]] lb] //=; simpc.
  by rewrite /mxtrace !big_ord_recl big_ord0 !mxE /=; simpc.
move/H => [_ _ /(_ 0%N erefl)] /= /matrixP /(_ 0 1) /eqP.
rewrite !mxE !big_ord_recl !big_ord0 !mxE /=; simpc.
by rewrite eq_complex /= eqxx andbT eq_sym -addr_eq0 -mulr2n mulrn_eq0 oner_eq0.
Qed.

Print Assumptions C23_matrix_basis.
Print Assumptions C23_complex_span.
Print Assumptions C24_solve_hermitian.
Print Assumptions C24_solve_general.
Print Assumptions C25_transpose_is_solved.
Print Assumptions C25_conjugate_refuted.
