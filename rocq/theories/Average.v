(* Averages over groups of point group elements that are known up to the phase of U. *)
From mathcomp Require Import all_ssreflect all_algebra.
From mathcomp Require Import complex.
From Verif Require Import Prelude PGE PGEProofs PGEGroup Keys KeysProofs PropApply LinSpan NullSpec.

Set Implicit Arguments.
Unset Strict Implicit.
Unset Printing Implicit Defensive.
Import GRing.Theory Num.Theory.
Local Open Scope ring_scope.
Local Open Scope complex_scope.

(* no two members at different positions are related *)
Fixpoint distinct (T : Type) (E : T -> T -> Prop) (s : seq T) : Prop :=
  if s is x :: s' then (forall y, List.In y s' -> ~ E x y) /\ distinct E s' else True.

Lemma distinct_nth T (E : T -> T -> Prop) x0 s i j : (forall x y, E x y -> E y x) -> distinct E s ->
  (i < size s)%N -> (j < size s)%N -> E (nth x0 s i) (nth x0 s j) -> i = j.
Proof.
move=> Es; elim: s i j => [|x s IH] [|i] [|j] //= [nx ds] li lj e.
- by case: (nx _ (nth_In x0 lj) e).
- by case: (nx _ (nth_In x0 li) (Es _ _ e)).
- by congr S; apply: IH.
Qed.

Lemma sum_shift (T : Type) (E : T -> T -> Prop) (mul : T -> T -> T) (W : zmodType) (phi : T -> W) h G :
  (forall x y, E x y -> E y x) -> (forall x y z, E x y -> E y z -> E x z) ->
  (forall x y, E x y -> phi x = phi y) ->
  (forall x y, List.In x G -> List.In y G -> E (mul h x) (mul h y) -> E x y) ->
  distinct E G -> (forall x, List.In x G -> exists2 y, List.In y G & E (mul h x) y) ->
  \sum_(x <- G) phi (mul h x) = \sum_(x <- G) phi x.
Proof.
move=> Es Et ph cancel dG cl; case: (posnP (size G)) => [/size0nil ->|n0]; first by rewrite !big_nil.
have [x0 _] : exists x0 : T, true by case: G n0 {cancel dG cl} => // x; exists x.
have [f fE] : exists f : 'I_(size G) -> 'I_(size G), forall i : 'I_(size G), E (mul h (nth x0 G i)) (nth x0 G (f i)).
  suff H (i : 'I_(size G)) : exists j : 'I_(size G), E (mul h (nth x0 G i)) (nth x0 G j) by apply: fin_all_exists H.
  have [y yG e] := cl _ (nth_In x0 (ltn_ord i)).
  by have [j lj E'] := In_nth x0 yG; exists (Ordinal lj); rewrite /= -E'.
have fi : injective f.
  move=> i j e; apply: val_inj; apply: (@distinct_nth _ _ x0 _ _ _ Es dG); rewrite ?ltn_ord //.
  apply: cancel; [exact: nth_In (ltn_ord i)|exact: nth_In (ltn_ord j)|].
  by apply: Et (fE i) _; rewrite e; apply: Es; apply: fE.
rewrite !(big_nth x0) !big_mkord [RHS](reindex_inj fi) /=.
by apply: eq_bigr => i _; apply: ph.
Qed.

Lemma eq_sum_In (T : Type) (W : zmodType) (f g : T -> W) (s : seq T) :
  (forall x, List.In x s -> f x = g x) -> \sum_(x <- s) f x = \sum_(x <- s) g x.
Proof.
elim: s => [|x s IH] H; first by rewrite !big_nil.
by rewrite !big_cons (H x (or_introl erefl)) IH // => y ys; apply: H; right.
Qed.

Section Group.
Variables (F : rcfType) (d n : nat).
Local Notation C := F[i].
Local Notation pge := (pge F d n).
Implicit Types (g h k : pge) (G : seq pge).

(* equality of elements up to the phase of U *)
Definition phase_sameU (oU oV : option 'M[C]_n.+1) : Prop :=
  match oU, oV with
  | Some U, Some V => phase_eq U V
  | None, None => True
  | _, _ => False
  end.
Definition phase_same g h : Prop := basic_eq g h /\ phase_sameU (pU g) (pU h).

Lemma phase_same_refl g : phase_same g g.
Proof. by split=> //; case: (pU g) => //= U; apply: phase_eq_refl. Qed.
Lemma phase_same_sym g h : phase_same g h -> phase_same h g.
Proof.
case=> -[E1 E2 E3] H; split; first by split.
by case: (pU g) (pU h) H => [U|] [V|] //=; apply: phase_eq_sym.
Qed.
Lemma phase_same_trans g h k : phase_same g h -> phase_same h k -> phase_same g k.
Proof.
case=> -[E1 E2 E3] H [[E4 E5 E6] H']; split; first by split; rewrite ?E1 ?E2 ?E3.
by case: (pU g) (pU h) (pU k) H H' => [U|] [V|] [W|] //=; apply: phase_eq_trans.
Qed.
Lemma pge_phase_same g h : pge_same g h -> phase_same g h.
Proof. by case=> eR ec ea eU; rewrite /phase_same eU; split=> //; case: (pU h) => //= U; apply: phase_eq_refl. Qed.

Lemma phase_same_mul g h h' : phase_same h h' -> phase_same (pge_mul g h) (pge_mul g h').
Proof.
case=> -[E1 E2 E3] H; split; first by split; rewrite /= ?E1 ?E2 ?E3.
rewrite /=; case: (pU g) (pU h) (pU h') H => [U|] [V|] [W|] //= H.
case: (pconj g); apply: phase_eq_mul => //; try exact: phase_eq_refl.
exact: phase_eq_conj.
Qed.

Lemma phase_same_cancel g h h' : pge_wf g -> same_U g h -> same_U g h' ->
  phase_same (pge_mul g h) (pge_mul g h') -> phase_same h h'.
Proof.
move=> wg u u' /(phase_same_mul (pge_inv g)); rewrite !pge_mulA.
have E k : same_U g k -> phase_same (pge_mul (pge_mul (pge_inv g) g) k) k.
  move=> uk; apply: pge_phase_same.
  apply: pge_same_trans (pge_same_mul (pge_mulVg wg) (pge_same_refl k)) _.
  rewrite (@identity_hasU _ _ _ g k); first exact: pge_mul1g.
  by move: uk; rewrite /same_U /hasU; case: (pU g); case: (pU k).
move=> H; apply: phase_same_trans (phase_same_sym (E _ u)) _.
by apply: phase_same_trans H (E _ u').
Qed.

Lemma phase_same_pull g h x : phase_same g h -> pull g x = pull h x.
Proof. by case=> -[E1 E2 _] _; rewrite /pull E1 E2. Qed.
Lemma phase_unit (c : C) : `|c| = 1 -> c * conjc c = 1.
Proof. by move=> c1; have := normCK c; rewrite c1 expr1n => <-. Qed.
Lemma phase_same_act g h A : phase_same g h -> act g A = act h A.
Proof.
case=> -[_ E2 E3]; rewrite /act E2 E3; move: (_ *: _) => B.
case: (pU g) (pU h) => [U|] [V|] //= [c c1 ->].
by rewrite daggerZ -scalemxAr -!scalemxAl scalerA mulrC phase_unit // scale1r.
Qed.

(* a set of elements that is a group up to the phases of U *)
Record symmetry_group (G : seq pge) : Prop := SymmetryGroup {
  sg_wf : forall g, List.In g G -> pge_wf g;
  sg_U : forall g h, List.In g G -> List.In h G -> same_U g h;
  sg_distinct : distinct phase_same G;
  sg_closed : forall g h, List.In g G -> List.In h G ->
     exists2 k, List.In k G & phase_same (pge_mul g h) k;
  sg_inhabited : (0 < size G)%N }.

Variables (P : eqType) (pone : P) (pmul : P -> P -> P) (pc : P -> P).
Local Notation ass := (assignment F d pone pmul pc).

(* the documented action on functions of the momenta *)
Definition moved g (f : ass -> 'M[C]_n.+1) (a : ass) : 'M[C]_n.+1 :=
  act g (f (at_k a (pull g (as_k a)))).

Lemma moved_mul g h f a : pge_wf g -> pge_wf h -> same_U g h ->
  moved (pge_mul g h) f a = moved g (moved h f) a.
Proof.
move=> [ug _] [uh _] sU; rewrite /moved act_mul // pull_mul //.
Qed.
Lemma moved_phase g h f a : phase_same g h -> moved g f a = moved h f a.
Proof. by move=> e; rewrite /moved (phase_same_pull _ e) (phase_same_act _ e). Qed.
Lemma eq_moved g f f' : f =1 f' -> moved g f =1 moved g f'.
Proof. by move=> e a; rewrite /moved e. Qed.

Lemma cj_real c (r : F) (A B : 'M[C]_n.+1) : cj c (r%:C *: A + B) = r%:C *: cj c A + cj c B.
Proof. by case: c => //=; rewrite mxconjD mxconjZ; congr (_ *: _ + _); rewrite /= oppr0. Qed.
Lemma act_real g (r : F) A B : act g (r%:C *: A + B) = r%:C *: act g A + act g B.
Proof.
rewrite /act cj_real scalerDr scalerA mulrC -scalerA; case: (pU g) => [U|] //=.
by rewrite mulmxDr mulmxDl -scalemxAr -scalemxAl.
Qed.
Lemma act0 g : act g 0 = 0.
Proof.
have /eqP := act_real g 1 0 0; rewrite scaler0 addr0 scale1r.
by rewrite -[X in X == _]addr0 (inj_eq (addrI _)) eq_sym => /eqP.
Qed.
Lemma actD g A B : act g (A + B) = act g A + act g B.
Proof. by have := act_real g 1 A B; rewrite !scale1r. Qed.
Lemma actZ g (r : F) A : act g (r%:C *: A) = r%:C *: act g A.
Proof. by have := act_real g r A 0; rewrite act0 !addr0. Qed.
Lemma act_sum g (I : Type) (s : seq I) (f : I -> 'M[C]_n.+1) : act g (\sum_(i <- s) f i) = \sum_(i <- s) act g (f i).
Proof. by elim: s => [|i s IH]; rewrite ?big_nil ?act0 // !big_cons actD IH. Qed.

Lemma invnC (N : nat) : (N%:R^-1 : C) = ((N%:R^-1 : F)%:C).
Proof. by rewrite fmorphV rmorph_nat. Qed.

Definition average G (f : ass -> 'M[C]_n.+1) (a : ass) : 'M[C]_n.+1 :=
  (size G)%:R^-1 *: \sum_(g <- G) moved g f a.

Lemma average_invariant G f h : symmetry_group G -> List.In h G ->
  moved h (average G f) =1 average G f.
Proof.
case=> wG uG dG cG _ hG a; rewrite {1}/moved /average invnC actZ; congr (_ *: _).
rewrite act_sum -[RHS](@sum_shift _ phase_same (@pge_mul F d n) _ (fun g => moved g f a) h) //.
- by apply: eq_sum_In => g gG; rewrite moved_mul //; [apply: wG|apply: wG|apply: uG].
- exact: phase_same_sym.
- exact: phase_same_trans.
- by move=> g k; apply: moved_phase.
- by move=> x y xG yG; apply: phase_same_cancel; [apply: wG|apply: uG|apply: uG].
- by move=> x xG; apply: cG.
Qed.

Lemma average_fixed G f : (0 < size G)%N -> (forall g, List.In g G -> moved g f =1 f) -> average G f =1 f.
Proof.
move=> n0 H a; rewrite /average (eq_sum_In (g := fun=> f a)) => [|g gG]; last exact: H.
rewrite big_const_seq count_predT iter_addr_0 -scaler_nat scalerA mulVf ?scale1r //.
by rewrite pnatr_eq0 -lt0n.
Qed.

Lemma average_linear G (r : F) f1 f2 f : (forall a, f a = r%:C *: f1 a + f2 a) ->
  forall a, average G f a = r%:C *: average G f1 a + average G f2 a.
Proof.
move=> H a; rewrite /average [in RHS]scalerA [r%:C * _]mulrC -[in RHS]scalerA -scalerDr; congr (_ *: _).
rewrite [X in _ = X + _]scaler_sumr -big_split /=.
by apply: eq_bigr => g _; rewrite /moved H act_real.
Qed.
End Group.
