(* Linear combinations, independence and spans of lists of vectors.
   The vectors live in a space over C; the coefficients are taken in a field K
   embedded in C by [e] (real or complex combinations).  A combination of the
   members of a list X uses the coefficients c 0, ..., c (size X - 1). *)
From mathcomp Require Import all_ssreflect all_algebra.
From mathcomp Require Import complex.
From Verif Require Import Prelude.

Set Implicit Arguments.
Unset Strict Implicit.
Unset Printing Implicit Defensive.
Import GRing.Theory.
Local Open Scope ring_scope.

Section Comb.
Variables (K C : fieldType) (e : {rmorphism K -> C}) (V : lmodType C).
Implicit Types (X Y : seq V) (c d : nat -> K) (v : V).

Definition comb X c : V := \sum_(j < size X) e (c j) *: X`_j.
Definition span X v : Prop := exists c, v = comb X c.
Definition indep X : Prop := forall c, comb X c = 0 -> forall j, (j < size X)%N -> c j = 0.
(* X is a basis of the set P of vectors *)
Definition is_basis X (P : V -> Prop) : Prop := indep X /\ forall v, P v <-> span X v.

Lemma eq_comb X c d : (forall j, (j < size X)%N -> c j = d j) -> comb X c = comb X d.
Proof. by move=> E; apply: eq_bigr => j _; rewrite E. Qed.

Lemma combD X c d : comb X (fun j => c j + d j) = comb X c + comb X d.
Proof. by rewrite -big_split; apply: eq_bigr => j _; rewrite rmorphD scalerDl. Qed.
Lemma combN X c : comb X (fun j => - c j) = - comb X c.
Proof. by rewrite -sumrN; apply: eq_bigr => j _; rewrite rmorphN scaleNr. Qed.
Lemma combZ X a c : comb X (fun j => a * c j) = e a *: comb X c.
Proof. by rewrite scaler_sumr; apply: eq_bigr => j _; rewrite rmorphM scalerA. Qed.
Lemma comb0 X : comb X (fun=> 0) = 0.
Proof. by apply: big1 => j _; rewrite rmorph0 scale0r. Qed.
Lemma comb_nil c : comb [::] c = 0. Proof. by rewrite /comb big_ord0. Qed.
Lemma comb_cons x X c : comb (x :: X) c = e (c 0%N) *: x + comb X (fun j => c j.+1).
Proof. by rewrite /comb big_ord_recl. Qed.
Lemma comb_cat X Y c : comb (X ++ Y) c = comb X c + comb Y (fun j => c (size X + j)%N).
Proof.
elim: X c => [|x X IH] c /=; first by rewrite comb_nil add0r; apply: eq_comb.
by rewrite !comb_cons IH addrA.
Qed.
Lemma comb_delta X i : (i < size X)%N -> comb X (fun j => (j == i)%:R) = X`_i.
Proof.
move=> li; rewrite /comb (bigD1 (Ordinal li)) //= eqxx rmorph1 scale1r big1 ?addr0 // => j.
by rewrite -(inj_eq val_inj) /= => /negPf ->; rewrite rmorph0 scale0r.
Qed.
(* combinations of finitely many combinations *)
Lemma comb_sum (I : Type) (r : seq I) X (a : I -> K) (f : I -> nat -> K) :
  comb X (fun j => \sum_(i <- r) a i * f i j) = \sum_(i <- r) e (a i) *: comb X (f i).
Proof.
elim: r => [|i r IH].
  by rewrite big_nil -[RHS](comb0 X); apply: eq_comb => j _; rewrite big_nil.
rewrite big_cons -combZ -IH -combD; apply: eq_comb => j _.
by rewrite big_cons.
Qed.

Lemma span0 X : span X 0. Proof. by exists (fun=> 0); rewrite comb0. Qed.
Lemma spanD X u v : span X u -> span X v -> span X (u + v).
Proof. by case=> c -> [d ->]; exists (fun j => c j + d j); rewrite combD. Qed.
Lemma spanZ X a v : span X v -> span X (e a *: v).
Proof. by case=> c ->; exists (fun j => a * c j); rewrite combZ. Qed.
Lemma spanN X v : span X v -> span X (- v).
Proof. by case=> c ->; exists (fun j => - c j); rewrite combN. Qed.
Lemma span_sum (I : Type) (r : seq I) (P : pred I) (f : I -> V) X :
  (forall i, P i -> span X (f i)) -> span X (\sum_(i <- r | P i) f i).
Proof. by move=> H; elim/big_ind: _ => //; [exact: span0 | exact: spanD]. Qed.
Lemma span_mem X x : List.In x X -> span X x.
Proof.
elim: X => //= y X IH [<-|/IH [c ->]].
  exists (fun j => (j == 0%N)%:R); rewrite comb_cons eqxx rmorph1 scale1r.
  by rewrite (_ : comb X _ = 0) ?addr0 // -[RHS](comb0 X); apply: eq_comb.
by exists (fun j => if j is j'.+1 then c j' else 0); rewrite comb_cons rmorph0 scale0r add0r.
Qed.
Lemma span_nth X j : (j < size X)%N -> span X X`_j.
Proof. by move=> lj; apply: span_mem; apply: nth_In. Qed.
(* the span of X lies in that of Y if the members do *)
Lemma span_sub X Y : (forall x, List.In x X -> span Y x) -> forall v, span X v -> span Y v.
Proof.
move=> H v [c ->]; apply: span_sum => j _; apply: spanZ; apply: H.
exact: nth_In.
Qed.

Lemma indep_uniq X c d : indep X -> comb X c = comb X d -> forall j, (j < size X)%N -> c j = d j.
Proof.
move=> IX E j lj; apply/eqP; rewrite -subr_eq0; apply/eqP.
apply: (IX (fun j => c j - d j)) lj.
by rewrite (combD X c (fun j => - d j)) combN E subrr.
Qed.
Lemma indep_nil : indep [::]. Proof. by []. Qed.
Lemma indep_cons x X : indep X -> ~ span X x -> indep (x :: X).
Proof.
move=> IX N c; rewrite comb_cons => E.
have [c0|nz] := eqVneq (c 0%N) 0.
  move: E; rewrite c0 rmorph0 scale0r add0r => /IX I [|j] // lj; exact: I.
case: N; exists (fun j => - ((c 0%N)^-1 * c j.+1)); rewrite combN.
rewrite (combZ X (c 0%N)^-1 (fun j => c j.+1)).
move/eqP: E; rewrite addrC addr_eq0 => /eqP ->; rewrite scalerN opprK scalerA -rmorphM mulVf //.
by rewrite rmorph1 scale1r.
Qed.

(* a list with a dual list of coordinates is a basis *)
Lemma dual_basis (T : eqType) (s : seq T) (b : T -> V) (co : T -> V -> K) (P : V -> Prop) :
  uniq s ->
  (forall t (c : T -> K), t \in s -> co t (\sum_(u <- s) e (c u) *: b u) = c t) ->
  (forall v, P v -> v = \sum_(u <- s) e (co u v) *: b u) ->
  (forall c : T -> K, P (\sum_(u <- s) e (c u) *: b u)) ->
  is_basis [seq b t | t <- s] P.
Proof.
move=> U H1 H2 H3.
have CE (c : nat -> K) : comb [seq b t | t <- s] c = \sum_(u <- s) e (c (index u s)) *: b u.
  case: s U {H1 H2 H3} => [|t0 s] U; first by rewrite comb_nil big_nil.
  rewrite /comb size_map (big_nth t0) big_mkord; apply: eq_bigr => j _.
  by rewrite (nth_map t0) // index_uniq.
split=> [c E j|v].
  rewrite size_map => lj; rewrite CE in E.
  case: s U H1 H2 H3 CE E lj => // t0 s U H1 _ _ CE E lj.
  have m : nth t0 (t0 :: s) j \in t0 :: s by apply: mem_nth.
  have m0 t : t \in t0 :: s -> co t 0 = 0.
    move=> mt; rewrite -(H1 t (fun=> 0) mt); congr (co t _).
    by rewrite big1 // => u _; rewrite rmorph0 scale0r.
  have := H1 _ (fun u => c (index u (t0 :: s))) m; rewrite E m0 //.
  by rewrite index_uniq.
split=> [/H2 E|[c ->]]; last by rewrite CE; apply: (H3 (fun u => c (index u s))).
case: s U {H1 H3} H2 E CE => [|t0 s] U H2 E CE.
  by rewrite E big_nil; apply: span0.
exists (fun j => co (nth t0 (t0 :: s) j) v); rewrite CE {1}E big_seq [RHS]big_seq.
by apply: eq_bigr => u mu; rewrite nth_index.
Qed.
End Comb.
Arguments comb {K C} e {V}.
Arguments span {K C} e {V}.
Arguments indep {K C} e {V}.
Arguments is_basis {K C} e {V}.

(* row vectors of coefficients, as stored in numpy arrays *)
Section Rows.
Variables (K C : fieldType) (e : {rmorphism K -> C}) (V : lmodType C).
Definition combr N (X : seq V) (v : 'rV[K]_N) : V := \sum_(j < N) e (v 0 j) *: X`_j.

Definition rowf N (v : 'rV[K]_N) (j : nat) : K := if insub j is Some i then v 0 i else 0.
Lemma rowfE N (v : 'rV[K]_N) (j : 'I_N) : rowf v j = v 0 j.
Proof. by rewrite /rowf valK. Qed.
Lemma combrE (X : seq V) (v : 'rV[K]_(size X)) : combr X v = comb e X (rowf v).
Proof. by apply: eq_bigr => j _; rewrite rowfE. Qed.
Lemma combr_row (X : seq V) c : comb e X c = combr X (\row_(j < size X) c j).
Proof. by apply: eq_bigr => j _; rewrite mxE. Qed.

Lemma combr_comb N (X : seq V) (ns : seq 'rV[K]_N) d :
  comb e [seq combr X v | v <- ns] d = combr X (comb [rmorphism of idfun] ns d).
Proof.
rewrite /comb size_map /combr; transitivity (\sum_(i < size ns) \sum_(j < N) e (d i * ns`_i 0 j) *: X`_j).
  apply: eq_bigr => i _; rewrite (nth_map 0) // scaler_sumr; apply: eq_bigr => j _.
  by rewrite rmorphM scalerA.
rewrite exchange_big; apply: eq_bigr => j _ /=.
rewrite -scaler_suml -rmorph_sum summxE; congr (e _ *: _).
by apply: eq_bigr => i _; rewrite mxE.
Qed.

(* a basis of the coefficients gives a basis of the solutions *)
Lemma compose_basis (X : seq V) (ns : seq 'rV[K]_(size X)) (P Q : V -> Prop) :
  is_basis e X P ->
  is_basis [rmorphism of idfun] ns (fun v => Q (combr X v)) ->
  is_basis e [seq combr X v | v <- ns] (fun x => P x /\ Q x).
Proof.
case=> IX PX [In Pn]; split=> [d|x].
  rewrite combr_comb combrE => E j; rewrite size_map => lj; apply: In lj.
  apply/rowP => k; rewrite mxE -rowfE; exact: IX.
split=> [[/PX [c Ec] qx]|[d ->]].
  have /Pn [d Ed] : Q (combr X (\row_(j < size X) c j)) by rewrite -combr_row -Ec.
  by exists d; rewrite combr_comb -Ed -combr_row.
rewrite combr_comb; split; last by apply/Pn; exists d.
by apply/PX; rewrite combrE; exists (rowf (comb [rmorphism of idfun] ns d)).
Qed.

(* the span of combinations *)
Lemma compose_span (X : seq V) (ns : seq 'rV[K]_(size X)) (v : V) :
  span e [seq combr X v | v <- ns] v <-> exists2 c, span [rmorphism of idfun] ns c & v = combr X c.
Proof.
split=> [[d ->]|[c [d ->] ->]]; last by exists d; rewrite combr_comb.
by exists (comb [rmorphism of idfun] ns d); [exists d|rewrite combr_comb].
Qed.
End Rows.
Arguments combr {K C} e {V N}.

Lemma eq_basis (K C : fieldType) (e : {rmorphism K -> C}) (V : lmodType C) (X : seq V) (P Q : V -> Prop) :
  (forall v, P v <-> Q v) -> is_basis e X P -> is_basis e X Q.
Proof.
move=> E [I H]; split=> // v; split=> [/E /H //|/H /E //].
Qed.

Lemma comb_map (K C : fieldType) (e : {rmorphism K -> C}) (V W : lmodType C) (f : V -> W) (X : seq V) c :
  f 0 = 0 -> (forall u v, f (u + v) = f u + f v) -> (forall a v, f (e a *: v) = e a *: f v) ->
  comb e [seq f x | x <- X] c = f (comb e X c).
Proof.
move=> f0 fD fZ; rewrite /comb size_map; elim/big_rec2: _ => [|j w v _ ->] //.
by rewrite fD fZ (nth_map 0).
Qed.

(* a multiple of a basis *)
Lemma scale_basis (K C : fieldType) (e : {rmorphism K -> C}) (V : lmodType C) (X : seq V) (P : V -> Prop) (a : C) :
  a != 0 -> is_basis e X P -> is_basis e [seq a *: x | x <- X] (fun v => P (a^-1 *: v)).
Proof.
move=> a0 [I H].
have E c : comb e [seq a *: x | x <- X] c = a *: comb e X c.
  apply: (@comb_map _ _ _ _ _ (fun x => a *: x)) => [|u v|b v]; first exact: scaler0.
    exact: scalerDr.
  by rewrite !scalerA mulrC.
split=> [c|v].
  rewrite E => /eqP; rewrite scaler_eq0 (negPf a0) /= => /eqP /I.
  by rewrite size_map.
split=> [/H [c Ec]|[c ->]]; first by exists c; rewrite E -Ec scalerA divff // scale1r.
by rewrite E scalerA mulVf // scale1r; apply/H; exists c.
Qed.

(* A real basis of a real form is a complex basis of the complex space. *)
Lemma complexify (F : rcfType) (V : lmodType F[i]) (B : seq V) (P Q : V -> Prop) :
  is_basis [rmorphism of real_complex F] B P ->
  (forall v, Q v <-> exists2 h, P h & exists2 k, P k & v = h + ('i)%C *: k) ->
  (forall h k, P h -> P k -> h + ('i)%C *: k = 0 -> h = 0) ->
  is_basis [rmorphism of idfun] B Q.
Proof.
move=> [I H] Q1 U.
have E (c : nat -> F[i]) : comb [rmorphism of idfun] B c =
    comb [rmorphism of real_complex F] B (fun j => complex.Re (c j)) +
    ('i)%C *: comb [rmorphism of real_complex F] B (fun j => complex.Im (c j)).
  rewrite /comb scaler_sumr -big_split; apply: eq_bigr => j _ /=.
  by rewrite scalerA -scalerDl -complexE.
split=> [c|v].
  rewrite E => E0 j lj.
  have r0 : comb [rmorphism of real_complex F] B (fun j => complex.Re (c j)) = 0.
    by apply: U E0; apply/H; eexists.
  have i0 : comb [rmorphism of real_complex F] B (fun j => complex.Im (c j)) = 0.
    move: E0; rewrite r0 add0r => /eqP; rewrite scaler_eq0.
    by rewrite eq_complex /= oner_eq0 andbF => /eqP.
  by move: (I _ r0 j lj) (I _ i0 j lj); case: (c j) => a b /= -> ->.
rewrite Q1; split=> [[h /H [c ->] [k /H [d ->] ->]]|[c ->]].
  exists (fun j => (c j +i* d j)%C); rewrite E; congr (_ + _ *: _); exact: eq_comb.
rewrite E; eexists; first by apply/H; eexists.
by eexists; first by apply/H; eexists.
Qed.
