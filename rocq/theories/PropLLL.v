(* C56: lll *)
From mathcomp Require Import all_ssreflect all_fingroup all_algebra.
From Verif Require Import Prelude LinSpan NullSpec Complement LLL.

Set Implicit Arguments.
Unset Strict Implicit.
Unset Printing Implicit Defensive.
Import Order.TTheory GRing.Theory Num.Theory.
Local Open Scope ring_scope.

Section Rows.
Variables (F : rcfType) (m d : nat).
Local Notation N := m.+1.
Implicit Types (i j : 'I_N).
Lemma row_set k (M : 'M[F]_(N, k)) i r a : row a (set_row M i r) = if a == i then r else row a M.
Proof. by apply/rowP => b; rewrite !mxE; case: ifP => //; rewrite mxE. Qed.
Lemma set_rowE k (M : 'M[F]_(N, k)) i r a b : set_row M i r a b = if a == i then r 0 b else M a b.
Proof. by rewrite mxE. Qed.
Lemma row_xrow k (M : 'M[F]_(N, k)) i j a : row a (xrow i j M) = row (tperm i j a) M.
Proof. by apply/rowP => b; rewrite !mxE. Qed.
Lemma mem_below i j : (j \in below i) = (j < i)%N.
Proof. by rewrite mem_filter mem_enum andbT. Qed.
Lemma uniq_below i : uniq (below i).
Proof. by rewrite filter_uniq ?enum_uniq. Qed.
End Rows.

(* ---- the lattice ---- *)
Section Lattice.
Variables (F : rcfType) (m d : nat).
Local Notation N := m.+1.
Local Notation intm T := (map_mx intr T).
Implicit Types (i j : 'I_N) (B V : 'M[F]_(N, d)).
(* bases of the same lattice: related by an integer matrix with an integer inverse *)
Definition same_lattice B V : Prop := exists2 T : 'M[int]_N, T \in unitmx & V = intm T *m B.
Lemma same_refl B : same_lattice B B.
Proof. by exists 1%:M; rewrite ?unitmx1 // map_mx1 mul1mx. Qed.
Lemma same_trans B V W : same_lattice B V -> same_lattice V W -> same_lattice B W.
Proof.
move=> [T uT ->] [S uS ->]; exists (S *m T); first by rewrite unitmx_mul uS.
by rewrite map_mxM mulmxA.
Qed.
Lemma same_sym B V : same_lattice B V -> same_lattice V B.
Proof.
move=> [T uT ->]; exists (invmx T); first by rewrite unitmx_inv.
by rewrite mulmxA -map_mxM mulVmx // map_mx1 mul1mx.
Qed.
Lemma same_row V i j (q : int) : i != j -> same_lattice V (set_row V i (row i V - q%:~R *: row j V)).
Proof.
move=> nij; exists (1%:M - q *: delta_mx i j).
  suff /mulmx1_unit [] : (1%:M - q *: delta_mx i j) *m (1%:M + q *: delta_mx i j) = 1%:M :> 'M[int]_N by [].
  rewrite mulmxBl mul1mx mulmxDr mulmx1 -scalemxAl -scalemxAr mul_delta_mx_0 1?eq_sym //.
  by rewrite !scaler0 addr0 addrK.
rewrite map_mxB map_mx1 map_mxZ map_delta_mx mulmxBl mul1mx -scalemxAl.
apply/row_matrixP => a; rewrite row_set [in RHS]raddfB /=.
have -> : row a (q%:~R *: (delta_mx i j *m V)) = q%:~R *: ((delta_mx 0 j *+ (a == i)) *m V) :> 'rV[F]_d.
  by rewrite scalemxAl row_mul linearZ /= -scalemxAl [row a _]rowE mul_delta_mx_cond.
by case: (eqVneq a i) => [->|ne]; rewrite ?mulr0n ?mul0mx ?scaler0 ?subr0 // mulr1n -rowE.
Qed.
Lemma same_xrow V i j : same_lattice V (xrow i j V).
Proof. by exists (tperm_mx i j); rewrite ?unitmx_perm // map_perm_mx xrowE. Qed.

Variables (rnd : F -> int) (gsc : 'rV[F]_d -> 'rV[F]_d -> F).
Lemma reduce_same s i : same_lattice (lvecs s) (lvecs (ll_reduce rnd i s)).
Proof.
rewrite /ll_reduce; have : {subset rev (below i) <= below i} by move=> x; rewrite mem_rev.
elim: (rev _) s => [|j l IH] s sub; first exact: same_refl.
rewrite [foldl _ _ _]/=; apply: same_trans (IH _ _); last by move=> x h; apply: sub; rewrite inE h orbT.
apply: same_row; have := sub j; rewrite mem_head mem_below => /(_ isT) lt.
by apply: contraTneq lt => ->; rewrite ltnn.
Qed.
Lemma project_same s i l : lvecs (foldl (project_out gsc i) s l) = lvecs s.
Proof. by elim: l s => // j l IH s; rewrite [foldl _ _ _]/= IH. Qed.
Lemma init_same B : same_lattice B (lvecs (lll_init rnd gsc B)).
Proof.
rewrite /lll_init; have : same_lattice B (lvecs (LState B B 1%:M)) by apply: same_refl.
elim: (enum _) (LState B B 1%:M) => [//|i l IH] s h; apply: IH.
by apply: same_trans h _; rewrite -(project_same s i (below i)); apply: reduce_same.
Qed.
Lemma exchange_same i j s : same_lattice (lvecs s) (lvecs (exchange rnd gsc i j s)).
Proof.
rewrite /exchange; case: ifP => _; last exact: same_xrow.
apply: same_trans (reduce_same _ _); exact: same_xrow.
Qed.
(* C56, first part: whatever the Gram-Schmidt coefficients and however they are rounded, at the end of the loop the vectors
   span the same lattice *)
Theorem C56_lattice fuel c (i : nat) s s' : lll_loop rnd gsc fuel c i s = Some s' -> same_lattice (lvecs s) (lvecs s').
Proof.
elim: fuel i s => [|fuel IH] i s /=; first by case: ifP => // _ [<-]; apply: same_refl.
case: ifP => _; last by case=> <-; apply: same_refl.
case: ifP => _ E; have h := IH _ _ E => //; apply: same_trans h; exact: exchange_same.
Qed.
End Lattice.

(* ---- the Gram-Schmidt data ---- *)
Section GramSchmidt.
Variables (F : rcfType) (m d : nat).
Local Notation N := m.+1.
Local Notation gsc := (@gs_coefficient F d).
Implicit Types (i j k : 'I_N) (B V S : 'M[F]_(N, d)) (u : 'M[F]_N).

Definition lower u : Prop := (forall i, u i i = 1) /\ forall i j, (i < j)%N -> u i j = 0.
Definition orthogonal S : Prop := forall i j, i != j -> dot (row i S) (row j S) = 0.
Definition gram_schmidt V S u : Prop := [/\ V = u *m S, lower u & orthogonal S].
(* the documented meaning of c-reduced: each Gram-Schmidt vector is not much longer than the next one *)
Definition c_reduced V c : Prop := exists S u, gram_schmidt V S u /\
  forall i j, j = i.+1 :> nat -> dot (row i S) (row i S) < c * dot (row j S) (row j S).

Lemma set_rowM n (M : 'M[F]_(N, n)) i j q : set_row M i (row i M - q *: row j M) = (1%:M - q *: delta_mx i j) *m M.
Proof.
rewrite mulmxBl mul1mx; apply/row_matrixP => a; rewrite row_set [in RHS]raddfB /=.
have -> : row a (q *: delta_mx i j *m M) = q *: ((delta_mx 0 j *+ (a == i)) *m M) :> 'rV[F]_n.
  by rewrite row_mul linearZ /= -scalemxAl [row a _]rowE mul_delta_mx_cond.
by case: (eqVneq a i) => [->|ne]; rewrite ?mulr0n ?mul0mx ?scaler0 ?subr0 // mulr1n -rowE.
Qed.
Lemma rows_mul u S a : row a (u *m S) = \sum_k u a k *: row k S.
Proof. by rewrite row_mul mulmx_sum_row; apply: eq_bigr => k _; rewrite mxE. Qed.

Variable rnd : F -> int.
Lemma reduce_with_gs i j s : (j < i)%N -> gram_schmidt (lvecs s) (lstar s) (lu s) ->
  let s' := reduce_with rnd i s j in gram_schmidt (lvecs s') (lstar s') (lu s') /\ lstar s' = lstar s.
Proof.
move=> ji [e [l1 l2] o]; split=> //; split=> //; first by rewrite /= !set_rowM e mulmxA.
rewrite /reduce_with /=; move: (rnd (lu s i j))%:~R => q.
split=> [a|a b ab] /=; rewrite set_rowE; case: (eqVneq a i) => [ea|_]; [rewrite !mxE|exact: l1|rewrite !mxE|exact: l2].
  by rewrite ea l1 l2 // mulr0 subr0.
by rewrite -ea l2 // l2 ?mulr0 ?subr0 // (ltn_trans ji) // -ea.
Qed.
Lemma ll_reduce_gs i s : gram_schmidt (lvecs s) (lstar s) (lu s) ->
  let s' := ll_reduce rnd i s in gram_schmidt (lvecs s') (lstar s') (lu s') /\ lstar s' = lstar s.
Proof.
rewrite /ll_reduce; have : {subset rev (below i) <= below i} by move=> x; rewrite mem_rev.
elim: (rev _) s => [//|j l IH] s sub h /=.
have ji : (j < i)%N by rewrite -mem_below sub // mem_head.
have [h1 e1] := reduce_with_gs ji h.
by have [|h2 e2] := IH _ _ h1; [move=> x hx; apply: sub; rewrite inE hx orbT|split=> //; rewrite e2].
Qed.

(* the first row of the reduction of row i *)
Lemma fold_enum T (P : nat -> T -> Prop) (f : T -> 'I_N -> T) s :
  P 0%N s -> (forall i x, P i x -> P i.+1 (f x i)) -> P N (foldl f s (enum 'I_N)).
Proof.
move=> P0 step.
suff H (l : seq (ordinal N)) (k : nat) x : map val l = iota k (size l) -> P k x -> P (k + size l)%N (foldl f x l).
  by have := H (enum 'I_N) 0%N s; rewrite -{2}(size_map val) val_enum_ord size_iota size_enum_ord; apply.
elim: l k x => [|i l IH] k x /=; first by rewrite addn0.
by case=> <- e h; rewrite addnS -addSn; apply: IH => //; apply: step.
Qed.

Definition partial (i : nat) (dn : pred 'I_N) (s : lstate F m d) : Prop :=
  [/\ lvecs s = lu s *m lstar s, lower (lu s) &
   [/\ forall a k : 'I_N, (i < a)%N -> k != a -> lu s a k = 0,
       forall a k : 'I_N, a = i :> nat -> ~~ dn k -> k != a -> lu s a k = 0,
       forall a b : 'I_N, (a < i)%N -> (b < i)%N -> a != b -> dot (row a (lstar s)) (row b (lstar s)) = 0 &
       forall a k : 'I_N, a = i :> nat -> dn k -> dot (row a (lstar s)) (row k (lstar s)) = 0]].
Lemma dot_expand i j s (dn : pred 'I_N) : partial i dn s -> (forall k, dn k -> (k < i)%N) -> ~~ dn j -> (j < i)%N ->
  dot (row i (lvecs s)) (row j (lstar s)) = dot (row i (lstar s)) (row j (lstar s)).
Proof.
move=> [e [l1 l2] [h1 h2 h3 h4]] sub nj ji; rewrite e rows_mul dot_suml (bigD1 i) //= dotZl l1 mul1r big1 ?addr0 // => k nk.
rewrite dotZl; case dk: (dn k); last by rewrite h2 ?dk // mul0r.
have kj : k != j by apply: contraNneq nj => <-.
have ki : (k < i)%N by apply: sub.
by rewrite (h3 _ _ ki ji kj) mulr0.
Qed.
Lemma project_partial i j s (dn : pred 'I_N) : partial i dn s -> (forall k, dn k -> (k < i)%N) -> ~~ dn j -> (j < i)%N ->
  partial i [predU1 j & dn] (project_out gsc i s j).
Proof.
move=> P sub nj ji; have D := dot_expand P sub nj ji; case: P => e [l1 l2] [h1 h2 h3 h4].
have nij : i != j by apply: contraTneq ji => ->; rewrite ltnn.
rewrite /project_out; set a := gsc _ _; have orth : dot (row i (lstar s) - a *: row j (lstar s)) (row j (lstar s)) = 0.
  rewrite dotBl dotZl /a /gs_coefficient D; case: (eqVneq (dot (row j (lstar s)) (row j (lstar s))) 0) => [z|nz].
    by move/eqP: (z); rewrite dot_eq0 => /eqP ->; rewrite !dot0r mulr0 subr0.
  by rewrite divfK ?subrr.
split=> /=.
- rewrite set_rowM mulmxA {1}e; congr (_ *m _); rewrite mulmxBr mulmx1 -scalemxAr.
  apply/matrixP => x y; rewrite !mxE.
  rewrite (bigD1 i) //= big1 ?addr0 => [|k nk]; last by rewrite !mxE (negPf nk) /= mulr0.
  rewrite !mxE eqxx (negPf nij) andbF /=.
  case: (eqVneq x i) => [->|nx] /=.
    case: (eqVneq y j) => [->|ny]; rewrite ?mulr0 ?subr0 //.
    by rewrite l1 mulr1 mulr1 subrr h2 // eq_sym.
  suff -> : lu s x i = 0 by rewrite mul0r mulr0 subr0.
  case: (ltngtP x i) => [lt|gt|eq]; [exact: l2|by apply: h1; rewrite // eq_sym|by move/eqP: nx; case; apply: val_inj].
- split=> [x|x y xy]; rewrite mxE; case: ifP => [/andP[/eqP e1 /eqP e2]|_] //.
  + by move: nij; rewrite -e1 e2 eqxx.
  + by move: xy; rewrite e1 e2 ltnNge ltnW.
  exact: l2.
split=> [x k ix nk|x k ex nk kx|x y xi yi nxy|x k ex dk].
- rewrite mxE; case: ifP => [/andP[/eqP e1 _]|_]; last exact: h1.
  by move: ix; rewrite e1 ltnn.
- move: nk; rewrite /= negb_or => /andP[nk dk]; rewrite mxE (negPf nk) andbF; exact: h2.
- have ni (z : 'I_N) : (z < i)%N -> z != i by move=> zi; apply: contraTneq zi => ->; rewrite ltnn.
  by rewrite !row_set (negPf (ni x xi)) (negPf (ni y yi)); apply: h3.
have {ex} -> : x = i by apply: val_inj.
have ki : k != i by move: dk => /= /orP[/eqP ->|/sub]; [rewrite eq_sym|apply: contraTneq => ->; rewrite ltnn].
rewrite !row_set eqxx (negPf ki); move: dk => /=; case: (eqVneq k j) => [->|nk /= dk]; first by rewrite orth.
rewrite dotBl dotZl h4 // h3 ?mulr0 ?subr0 //; [exact: sub|by rewrite eq_sym].
Qed.
Lemma partial_ext (i : nat) (p q : pred 'I_N) s : p =1 q -> partial i p s -> partial i q s.
Proof.
move=> pq [e l [h1 h2 h3 h4]]; split=> //; split=> // a k; [have := h2 a k|have := h4 a k]; by rewrite pq.
Qed.
Lemma project_fold i l (dn : seq 'I_N) s : uniq (dn ++ l) -> (forall k, k \in dn ++ l -> (k < i)%N) -> partial i (mem dn) s ->
  partial i (mem (dn ++ l)) (foldl (project_out gsc i) s l).
Proof.
elim: l dn s => [|j l IH] dn s u sub P; first by rewrite cats0.
rewrite [foldl _ _ _]/=; have -> : dn ++ j :: l = (rcons dn j) ++ l by rewrite cat_rcons.
apply: IH; first by rewrite cat_rcons.
  by move=> k; rewrite cat_rcons; apply: sub.
apply: (@partial_ext _ [predU1 j & mem dn]) => [k|]; first by rewrite /= mem_rcons inE.
apply: project_partial => //.
- by move=> k hk; apply: sub; rewrite mem_cat; apply/orP; left.
- by move: u; rewrite cat_uniq /= negb_or => /and3P[_ /andP[]].
by apply: sub; rewrite mem_cat mem_head orbT.
Qed.
Lemma init_row_partial i s : partial i xpred0 s -> partial i.+1 xpred0 (init_row rnd gsc s i).
Proof.
move=> P; rewrite /init_row; set s1 := foldl _ _ _.
have {P} : partial i (fun k => (k < i)%N) s1.
  apply: (@partial_ext _ (mem ([::] ++ below i))) => [k|]; first by rewrite /= mem_below.
  apply: project_fold; [exact: uniq_below|by move=> k; rewrite mem_below|exact: partial_ext P].
move: s1 => s1 [e [l1 l2] [h1 _ h3 h4]].
pose Q (s2 : lstate F m d) := [/\ forall k : 'I_N, (k > i)%N -> row k (lu s2) = row k (lu s1), lstar s2 = lstar s1,
  lvecs s2 = lu s2 *m lstar s2 & lower (lu s2)].
have Q1 s2 j : (j < i)%N -> Q s2 -> Q (reduce_with rnd i s2 j).
  move=> ji [q1 q2 q3 [q4 q5]].
  split=> [k ik|||] /=; [|by []|by rewrite !set_rowM q3 mulmxA|].
    by rewrite row_set; case: (eqVneq k i) => [ek|_]; [move: ik; rewrite ek ltnn|apply: q1].
  move: (rnd (lu s2 i j))%:~R => q.
  split=> [a|a b ab] /=; rewrite set_rowE; case: (eqVneq a i) => [ea|_]; [rewrite !mxE|exact: q4|rewrite !mxE|exact: q5].
    by rewrite ea q4 q5 // mulr0 subr0.
  by rewrite -ea q5 // q5 ?mulr0 ?subr0 // (ltn_trans ji) // -ea.
have : Q (ll_reduce rnd i s1).
  have G l s2 : {subset l <= below i} -> Q s2 -> Q (foldl (reduce_with rnd i) s2 l).
    elim: l s2 => [//|j l IH] s2 sub q /=; apply: IH; first by move=> x hx; apply: sub; rewrite inE hx orbT.
    by apply: Q1 => //; rewrite -mem_below sub // mem_head.
  by apply: G => // x; rewrite mem_rev.
move: (ll_reduce _ _ _) => s2 [q1 q2 q3 q4]; split=> //; rewrite q2; split=> // [a k ia nk|a k ea _ nk|a b ai bi nab].
- by have /rowP /(_ k) := q1 a (ltnW ia); rewrite !mxE => ->; apply: h1 => //; apply: ltnW.
- have ia : (i < a)%N by rewrite ea.
  by have /rowP /(_ k) := q1 a ia; rewrite !mxE => ->; apply: h1.
move: ai bi; rewrite !ltnS [(a <= i)%N]leq_eqVlt [(b <= i)%N]leq_eqVlt => /orP[/eqP ea|ai] /orP[/eqP eb|bi].
- have e' : a = b by apply: val_inj; rewrite /= ea eb.
  by move: nab; rewrite e' eqxx.
- exact: h4.
- by rewrite dotC; apply: h4.
exact: h3.
Qed.
Lemma init_gs B : let s := lll_init rnd gsc B in gram_schmidt (lvecs s) (lstar s) (lu s).
Proof.
rewrite /lll_init; have : partial 0 xpred0 (LState B B 1%:M).
  split=> /=; rewrite ?mul1mx //; first by split=> [i|i j ij]; rewrite mxE ?eqxx // -val_eqE /= (ltn_eqF ij).
  by split=> // a k _; [|move=> _] => nk; rewrite mxE eq_sym (negPf nk).
move/(@fold_enum _ (fun (i : nat) s => partial i xpred0 s)) => H.
have [|e l [_ _ o _]] := H (init_row rnd gsc); first by move=> i s; apply: init_row_partial.
by split=> // a b; apply: o.
Qed.

(* ---- the exchange step ---- *)
Lemma tpermI i j k : k != i -> k != j -> tperm i j k = k.
Proof. by move=> ki kj; rewrite tpermD // eq_sym. Qed.
Lemma sum2 (n : nat) (f : 'I_N -> 'rV[F]_n) i j : i != j -> \sum_k f k = f i + f j + \sum_(k | (k != i) && (k != j)) f k.
Proof. by move=> nij; rewrite (bigD1 i) //= (bigD1 j) 1?eq_sym //= addrA. Qed.
Lemma lin_indep_pair (s t : 'rV[F]_d) (mu a : F) : dot s t = 0 -> s != 0 -> t != 0 ->
  (t + mu *: s != 0) /\ (s - a *: (t + mu *: s) != 0).
Proof.
move=> o s0 t0; have tt0 : dot t t != 0 by rewrite dot_eq0.
have ss0 : dot s s != 0 by rewrite dot_eq0.
split; apply/eqP => e.
  have := congr1 (dot t) e; rewrite dotDr dotZr dot0r (dotC t s) o mulr0 addr0 => /eqP; exact/negP.
have := congr1 (dot t) e; rewrite dotDr dotNr dotZr dotDr dotZr (dotC t s) o mulr0 addr0 add0r dot0r => /eqP.
rewrite oppr_eq0 mulf_eq0 (negPf tt0) orbF => /eqP a0.
by move: e; rewrite a0 scale0r subr0 => /eqP; exact/negP.
Qed.

Lemma gsc_orth (t q : 'rV[F]_d) : dot (t - gsc t q *: q) q = 0.
Proof.
rewrite dotBl dotZl /gs_coefficient; case: (eqVneq (dot q q) 0) => [z|nz].
  by move/eqP: (z); rewrite dot_eq0 => /eqP ->; rewrite !dot0r mulr0 subr0.
by rewrite divfK ?subrr.
Qed.

Lemma dot_sumP (P : pred 'I_N) (f : 'I_N -> 'rV[F]_d) w : dot (\sum_(k | P k) f k) w = \sum_(k | P k) dot (f k) w.
Proof. exact: (big_morph (fun x => dot x w) (fun x y => dotDl x y w) (dot0l w)). Qed.

Section Exchange.
Variables (i j : 'I_N) (s : lstate F m d).
Hypothesis ij : j = i.+1 :> nat.
Hypothesis G : gram_schmidt (lvecs s) (lstar s) (lu s).
Hypothesis nz : forall k, row k (lstar s) != 0.
Local Notation S := (lstar s).
Local Notation u := (lu s).
Let nij : i != j. Proof. by rewrite -val_eqE /= ij neq_ltn ltnSn. Qed.
Let T := row j S + u j i *: row i S.
Let a := gsc (row i (lvecs s)) T.
Let Q := row i S - a *: T.
Lemma expand_row k : row k (lvecs s) = u k i *: row i S + u k j *: row j S + \sum_(l | (l != i) && (l != j)) u k l *: row l S.
Proof. by case: G => e _ _; rewrite {1}e rows_mul (sum2 _ nij). Qed.
Lemma orth_T l : l != i -> l != j -> dot (row l S) T = 0.
Proof. by move=> li lj; case: G => _ _ o; rewrite /T dotDr dotZr !o // mulr0 addr0. Qed.
Lemma orth_Q l : l != i -> l != j -> dot (row l S) Q = 0.
Proof. by move=> li lj; case: G => _ _ o; rewrite /Q dotDr dotNr dotZr orth_T // o // mulr0 subr0. Qed.
Lemma dot_row_T k : dot (row k (lvecs s)) T = dot (u k i *: row i S + u k j *: row j S) T.
Proof.
rewrite expand_row dotDl dot_sumP big1 ?addr0 // => l /andP[li lj]; by rewrite dotZl orth_T ?mulr0.
Qed.
Lemma dot_row_Q k : dot (row k (lvecs s)) Q = dot (u k i *: row i S + u k j *: row j S) Q.
Proof.
rewrite expand_row dotDl dot_sumP big1 ?addr0 // => l /andP[li lj]; by rewrite dotZl orth_Q ?mulr0.
Qed.
Lemma uii : u i i = 1. Proof. by case: G => _ [h _] _. Qed.
Lemma ujj : u j j = 1. Proof. by case: G => _ [h _] _. Qed.
Lemma uij : u i j = 0. Proof. by case: G => _ [_ h] _; rewrite h // ij. Qed.
Lemma aE : a = gsc (row i S) T.
Proof. by rewrite /a /gs_coefficient dot_row_T uii uij scale1r scale0r addr0. Qed.
Lemma TQ : dot Q T = 0. Proof. by rewrite /Q aE gsc_orth. Qed.
Lemma T0 : T != 0.
Proof. by case: G => _ _ o; have [] := @lin_indep_pair (row i S) (row j S) (u j i) 0 (o _ _ nij) (nz i) (nz j). Qed.
Lemma Q0 : Q != 0.
Proof. by case: G => _ _ o; have [] := @lin_indep_pair (row i S) (row j S) (u j i) a (o _ _ nij) (nz i) (nz j). Qed.
Let c1 k := u k i * a + u k j - u k j * u j i * a.
Let c2 k := u k i - u k j * u j i.
Lemma plane k : u k i *: row i S + u k j *: row j S = c1 k *: T + c2 k *: Q.
Proof.
have -> : row i S = Q + a *: T by rewrite /Q subrK.
have -> : row j S = T - u j i *: (Q + a *: T) by rewrite /Q subrK /T addrK.
clearbody Q T; rewrite /c1 /c2 !(scalerDl, scalerBl, scalerDr, scalerBr, scaleNr, scalerN, scalerA, opprD).
move: (_ *: Q) (_ *: Q) (_ *: T) (_ *: T) (_ *: T) => x y z w v.
by rewrite [y + v]addrC -!addrA; congr (_ + _); rewrite addrCA; congr (_ + _); rewrite addrA addrC.
Qed.
Lemma coefT k : gsc (row k (lvecs s)) T = c1 k.
Proof.
rewrite /gs_coefficient dot_row_T plane dotDl !dotZl TQ mulr0 addr0 mulfK //.
by rewrite dot_eq0 T0.
Qed.
Lemma coefQ k : gsc (row k (lvecs s)) Q = c2 k.
Proof.
rewrite /gs_coefficient dot_row_Q plane dotDl !dotZl dotC TQ mulr0 add0r mulfK //.
by rewrite dot_eq0 Q0.
Qed.
Lemma exchange_gs : let s' := exchange rnd gsc i j s in [/\ gram_schmidt (lvecs s') (lstar s') (lu s'),
  row i (lstar s') = T, row j (lstar s') = Q & forall k, k != i -> k != j -> row k (lstar s') = row k S].
Proof.
have nji : (j == i) = false by rewrite eq_sym (negPf nij).
rewrite /exchange; set star1 := set_row S j _.
have r1 : row j star1 = T by rewrite row_set eqxx.
have r2 : row i star1 = row i S by rewrite row_set (negPf nij).
have r3 k : k != j -> row k star1 = row k S by move=> kj; rewrite row_set (negPf kj).
rewrite r1 r2 -/a -/Q; clearbody star1; set star := xrow i j (set_row _ _ _).
have p1 : row i star = T by rewrite row_xrow tpermL row_set eq_sym (negPf nij) r1.
have p2 : row j star = Q by rewrite row_xrow tpermR row_set eqxx.
have p3 k : k != i -> k != j -> row k star = row k S.
  by move=> ki kj; rewrite row_xrow tpermI // row_set (negPf ki) r3.
clearbody star; set u1 := set_entry _ j j 0; set u3 := \matrix_(k, l) _.
case: G => _ [l1 l2] o.
have u1E k l : u1 k l = if k == i then (if l == i then a else if l == j then 1 else u i l)
     else if k == j then (if l == i then 1 else if l == j then 0 else u j l) else u k l.
  rewrite !mxE.
  case: (eqVneq k i) => [->|ki]; case: (eqVneq l i) => [->|li] /=; rewrite ?(negPf nij) ?nji ?andbF //=.
  - by rewrite andbT.
  by case: (eqVneq k j) => [->|kj]; case: (eqVneq l j) => [->|lj] //=; rewrite ?eqxx.
have small k : k != i -> k != j -> (j < k)%N = false -> (k < i)%N.
  move=> ki kj; rewrite ltnNge => /negbFE; rewrite leq_eqVlt val_eqE (negPf kj) /= ij ltnS leq_eqVlt val_eqE (negPf ki).
  by [].
have lt_ij : (i < j)%N by rewrite ij.
have u3i l : u3 i l = if l == i then 1 else if l == j then 0 else u j l.
  by rewrite mxE ltnNge (ltnW lt_ij) /= mxE tpermL u1E eq_sym (negPf nij) eqxx.
have u3j l : u3 j l = if l == i then a else if l == j then 1 else u i l.
  by rewrite mxE ltnn /= mxE tpermR u1E eqxx.
have u3k k l : k != i -> k != j -> u3 k l = if (j < k)%N && ((l == i) || (l == j)) then (if l == i then c1 k else c2 k) else u k l.
  move=> ki kj; rewrite mxE; case: ifP => [/andP[_ hl]|_]; last by rewrite mxE tpermI // u1E (negPf ki) (negPf kj).
  rewrite row_xrow tpermI //; case/orP: hl => /eqP ->; first by rewrite p1 eqxx coefT.
  by rewrite p2 eq_sym (negPf nij) coefQ.
clearbody u3 u1.
suff H : gram_schmidt (xrow i j (lvecs s)) star u3.
  case: ifP => _; last by split.
  by have [h1 h2] := @ll_reduce_gs j (LState (xrow i j (lvecs s)) star u3) H; split=> //; rewrite h2.
split.
- apply/row_matrixP => k; rewrite row_xrow rows_mul (sum2 _ nij) p1 p2.
  have rest v w : (forall l, l != i -> l != j -> u v l = u3 w l) ->
      \sum_(l | (l != i) && (l != j)) u3 w l *: row l star = \sum_(l | (l != i) && (l != j)) u v l *: row l S.
    by move=> h; apply: eq_bigr => l /andP[li lj]; rewrite h // p3.
  case: (eqVneq k i) => [->|ki]; last case: (eqVneq k j) => [->|kj].
  + rewrite tpermL expand_row (rest j) => [|l li lj]; last by rewrite u3i (negPf li) (negPf lj).
    by rewrite !u3i !eqxx ?nji scale0r addr0 scale1r ujj scale1r [_ + row j S]addrC.
  + rewrite tpermR expand_row (rest i) => [|l li lj]; last by rewrite u3j (negPf li) (negPf lj).
    rewrite !u3j !eqxx ?nji uii uij scale0r addr0 !scale1r; congr (_ + _).
    by rewrite /Q addrC subrK.
  rewrite tpermI // expand_row (rest k) => [|l li lj]; last by rewrite u3k // (negPf li) (negPf lj) andbF.
  congr (_ + _); rewrite !u3k // !eqxx orbT ?nji /= !andbT; case: ifP => jk; first exact: plane.
  have ki' := small _ ki kj jk.
  by rewrite !l2 ?scale0r ?addr0 // ij ltnW.
- split=> [k|k l kl].
    case: (eqVneq k i) => [->|ki]; first by rewrite u3i eqxx.
    case: (eqVneq k j) => [->|kj]; first by rewrite u3j ?nji eqxx.
    by rewrite u3k // (negPf ki) (negPf kj) andbF l1.
  case: (eqVneq k i) kl => [->|ki] kl.
    rewrite u3i; case: eqP => [e|_]; first by move: kl; rewrite e ltnn.
    case: (eqVneq l j) => [//|lj]; rewrite l2 // ij; move: kl; rewrite leq_eqVlt => /orP[/eqP e|//].
    by move/eqP: lj; case; apply: val_inj; rewrite /= ij e.
  case: (eqVneq k j) kl => [->|kj] kl.
    rewrite u3j; case: eqP => [e|_]; first by move: kl; rewrite e ltnNge ltnW.
    by case: eqP => [e|_]; [move: kl; rewrite e ltnn|rewrite l2 // (ltn_trans lt_ij)].
  rewrite u3k //; case: ifP => [/andP[jk hl]|_]; last exact: l2.
  have : (l <= j)%N by case/orP: hl => /eqP -> //; apply: ltnW.
  by rewrite leqNgt (ltn_trans jk kl).
move=> k l; wlog kl : k l / (k < l)%N.
  move=> H nkl; case: (ltngtP k l) => [h|h|h]; [exact: H|by rewrite dotC; apply: H => //; rewrite eq_sym|].
  by move: nkl; rewrite (val_inj h) eqxx.
move=> nkl; case: (eqVneq k i) nkl => [->|ki]; last case: (eqVneq k j) => [->|kj]; rewrite ?p1 ?p2.
- case: (eqVneq l i) => [->|li]; rewrite ?eqxx // => _; case: (eqVneq l j) => [->|lj]; first by rewrite p2 dotC TQ.
  by rewrite p3 // dotC orth_T.
- case: (eqVneq l j) => [->|lj]; rewrite ?eqxx // => _; case: (eqVneq l i) => [->|li]; first by rewrite p1 TQ.
  by rewrite p3 // dotC orth_Q.
move=> nkl; rewrite (p3 k) //; case: (eqVneq l i) => [->|li]; first by rewrite p1 orth_T.
case: (eqVneq l j) => [->|lj]; first by rewrite p2 orth_Q.
by rewrite p3 // o.
Qed.
End Exchange.

(* ---- gs computes the same vectors ---- *)
Section GS.
Variables (V S : 'M[F]_(N, d)) (u : 'M[F]_N).
Hypothesis G : gram_schmidt V S u.
Hypothesis nz : forall k, row k S != 0.
Definition remaining i (dn : seq 'I_N) : 'rV[F]_d := \sum_k (if k \in dn then 0 else u i k) *: row k S.
Lemma gs_inner i l dn (M : 'M[F]_(N, d)) : uniq (dn ++ l) -> (forall k, k \in dn ++ l -> (k < i)%N) ->
  (forall a : 'I_N, (a < i)%N -> row a M = row a S) -> row i M = remaining i dn ->
  let M' := foldl (fun M j => set_row M i (row i M - gsc (row i M) (row j M) *: row j M)) M l in
  (forall a, a != i -> row a M' = row a M) /\ row i M' = remaining i (dn ++ l).
Proof.
case: G => _ [l1 l2] o.
elim: l dn M => [|j l IH] dn M un sub rS ri; first by rewrite cats0.
rewrite [foldl _ _ _]/=; have ji : (j < i)%N by apply: sub; rewrite mem_cat mem_head orbT.
have nji : j != i by rewrite -val_eqE /= neq_ltn ji.
have jd : j \notin dn by move: un; rewrite cat_uniq /= negb_or => /and3P[_ /andP[]].
have co : gsc (row i M) (row j M) = u i j.
  rewrite /gs_coefficient ri rS // dot_suml (bigD1 j) //= big1 ?addr0 => [|k kj]; last by rewrite dotZl o // mulr0.
  by rewrite dotZl (negPf jd) mulfK // dot_eq0.
rewrite co; set M1 := set_row M i _.
have -> : dn ++ j :: l = rcons dn j ++ l by rewrite cat_rcons.
have [||a ai||h1 h2] := IH (rcons dn j) M1; rewrite ?cat_rcons //.
- by rewrite row_set -val_eqE /= (ltn_eqF ai) rS.
- rewrite row_set eqxx ri rS // /remaining (bigD1 j) //= (negPf jd) [_ + \sum_(_ < _ | _) _]addrC addrK.
  rewrite [RHS](bigD1 j) //= mem_rcons mem_head scale0r add0r; apply: eq_bigr => k kj.
  by rewrite mem_rcons inE (negPf kj).
by split=> [a ai|]; [rewrite h1 // row_set (negPf ai)|rewrite -cat_rcons; exact: h2].
Qed.
Lemma gs_exact : gs gsc V = S.
Proof.
have GG := G; case: GG => e [l1 l2] o.
pose P (i : nat) (M : 'M[F]_(N, d)) := forall a : 'I_N, row a M = if (a < i)%N then row a S else row a V.
suff H : P N (gs gsc V) by apply/row_matrixP => a; rewrite H ltn_ord.
apply: fold_enum => [a|i M h]; first by rewrite ltn0.
have [||a ai||h1 h2] := @gs_inner i (below i) [::] M; rewrite ?cat0s.
- exact: uniq_below.
- by move=> k; rewrite mem_below.
- by rewrite h ai.
- by rewrite h ltnn {1}e rows_mul.
move=> a; case: (eqVneq a i) => [->|ai].
  rewrite ltnSn [LHS]h2 /remaining (bigD1 i) //= mem_below ltnn l1 scale1r big1 ?addr0 // => k ki.
  rewrite mem_below; case: (ltngtP k i) => [_|gt|eq]; [exact: scale0r|by rewrite l2 // scale0r|].
  by move/eqP: ki; case; apply: val_inj.
by rewrite /gs_row h1 // h ltnS [(a <= i)%N]leq_eqVlt val_eqE (negPf ai).
Qed.
End GS.

Lemma star_nonzero V S u : gram_schmidt V S u -> row_free V -> forall k, row k S != 0.
Proof.
case=> e _ _ fV k; have fS : row_free S.
  rewrite -row_leq_rank; apply: leq_trans (mxrankM_maxr u S); by rewrite -e row_leq_rank.
rewrite rowE mulmx_free_eq0 //.
apply/eqP => /rowP /(_ k) /eqP; by rewrite !mxE !eqxx oner_eq0.
Qed.
Lemma intm_unit (T : 'M[int]_N) : T \in unitmx -> (map_mx intr T : 'M[F]_N) \in unitmx.
Proof. by move=> uT; have /mulmx1_unit [] : map_mx intr T *m map_mx intr (invmx T) = 1%:M :> 'M[F]_N by rewrite -map_mxM mulmxV // map_mx1. Qed.
Lemma same_free B V : same_lattice B V -> row_free B -> row_free V.
Proof. by move=> [T uT ->] fB; rewrite -row_leq_rank mxrankMfree // mxrank_unit // intm_unit. Qed.

(* the Gram-Schmidt data stay exact during the loop *)
Lemma loop_exact fuel c (i : nat) s s' : row_free (lvecs s) -> gram_schmidt (lvecs s) (lstar s) (lu s) ->
  (forall a b : 'I_N, (a < i)%N -> b = a.+1 :> nat ->
     dot (row a (lstar s)) (row a (lstar s)) < c * dot (row b (lstar s)) (row b (lstar s))) ->
  lll_loop rnd gsc fuel c i s = Some s' ->
  gram_schmidt (lvecs s') (lstar s') (lu s') /\
  forall a b : 'I_N, b = a.+1 :> nat -> dot (row a (lstar s')) (row a (lstar s')) < c * dot (row b (lstar s')) (row b (lstar s')).
Proof.
have fin (n : nat) (s1 : lstate F m d) : (n < m)%N = false ->
    (forall a b : 'I_N, (a < n)%N -> b = a.+1 :> nat ->
       dot (row a (lstar s1)) (row a (lstar s1)) < c * dot (row b (lstar s1)) (row b (lstar s1))) ->
    forall a b : 'I_N, b = a.+1 :> nat -> dot (row a (lstar s1)) (row a (lstar s1)) < c * dot (row b (lstar s1)) (row b (lstar s1)).
  move=> /negbT; rewrite -leqNgt => mn h a b e; apply: h => //; apply: leq_trans mn.
  by have := ltn_ord b; rewrite e ltnS.
elim: fuel i s => [|fuel IH] i s fr G lt /=; first by case: ifP => // im [<-]; split=> //; apply: fin im lt.
case: ifP => im; last by case=> <-; split=> //; apply: fin im lt.
set i' : 'I_N := inord i; set j' : 'I_N := inord i.+1.
have ei : i' = i :> nat by rewrite inordK // ltnS ltnW.
have ej : j' = i'.+1 :> nat by rewrite ei inordK // ltnS.
case: ifP => [h|_] E; first apply: IH E => // a b.
  rewrite ltnS leq_eqVlt => /orP[/eqP ea eb|]; last exact: lt.
  have -> : a = i' by apply: val_inj; rewrite /= ei.
  by have -> : b = j' by apply: val_inj; rewrite /= ej ei eb ea.
have [G' _ _ st] := @exchange_gs i' j' s ej G (star_nonzero G fr).
apply: IH E => //; first exact: same_free (exchange_same rnd gsc i' j' s) fr.
move=> a b ai eb; rewrite !st; first by apply: lt => //; apply: leq_trans ai (leq_pred _).
- by rewrite -val_eqE /= eb ei; case: (i) ai => //= n an; rewrite neq_ltn ltnS an.
- by rewrite -val_eqE /= ej eb ei eqSS neq_ltn (leq_trans ai (leq_pred _)).
- by rewrite -val_eqE /= ei neq_ltn (leq_trans ai (leq_pred _)).
by rewrite -val_eqE /= ej ei neq_ltn (leq_trans ai) // (leq_trans (leq_pred _)).
Qed.

Hypothesis rndP : forall x : F, `|x - (rnd x)%:~R| <= 2^-1.
Lemma rnd_int (z : int) : rnd z%:~R = z.
Proof.
have := rndP z%:~R; rewrite -rmorphB /= -intr_norm => h.
have : (`|z - rnd z%:~R|%:~R : F) < 1%:~R by apply: le_lt_trans h _; rewrite invf_lt1 ?ltr0n // ltr1n.
by rewrite ltr_int ltNge -gtz0_ge1 normr_gt0 negbK subr_eq0 => /eqP.
Qed.
Variable near : F -> F -> bool.
Hypothesis near_refl : forall x, near x x.

(* C56: the result is a c-reduced basis of the same lattice, and the second value is the transposed transformation from the
   original basis to the reduced one; in exact arithmetic neither RuntimeError can occur *)
Theorem C56_lll fuel B c r : row_free B -> lll rnd gsc near fuel B c = Some r ->
  exists V T, [/\ r = Ok (V, T), T \in unitmx, V = map_mx intr T^T *m B, same_lattice B V & c_reduced V c].
Proof.
move=> fB; rewrite /lll; case: ifP => [dN|_].
  by move: fB; rewrite -row_leq_rank => h; have := leq_trans h (rank_leq_col B); rewrite leqNgt dN.
case E: lll_loop => [s|] //=.
have sl : same_lattice B (lvecs s) := same_trans (init_same rnd gsc B) (C56_lattice E).
have f0 : row_free (lvecs (lll_init rnd gsc B)) := same_free (init_same rnd gsc B) fB.
have [//|G red] := loop_exact f0 (init_gs B) _ E.
have [T uT eV] := sl.
have eT : (lvecs s *m pinvmx B) = map_mx intr T by rewrite eV -mulmxA mulmxVp // mulmx1.
have eR : map_mx rnd (lvecs s *m pinvmx B)^T = T^T by apply/matrixP => a b; rewrite eT !mxE rnd_int.
have -> : [forall a, forall b, near ((map_mx rnd (lvecs s *m pinvmx B)^T) a b)%:~R ((lvecs s *m pinvmx B)^T a b)].
  by apply/forallP => a; apply/forallP => b; rewrite eR eT !mxE near_refl.
have -> /= : is_c_reduced gsc (lvecs s) c.
  rewrite /is_c_reduced (gs_exact G (star_nonzero G _)); last exact: same_free fB.
  apply/allP => k; rewrite mem_iota add0n => km /=; apply: red.
  by rewrite !inordK // ltnS // ltnW.
case=> <-; exists (lvecs s), T^T; rewrite -eR; split=> //; first by rewrite eR unitmx_tr.
  by rewrite eR trmxK.
by exists (lstar s), (lu s).
Qed.
End GramSchmidt.

(* two vectors of the square lattice: the reduced basis is the standard one.  The documentation says that the second value
   transforms from the reduced basis to the original one; it does not. *)
Section Shear.
Variables (F : rcfType) (rnd : F -> int) (near : F -> F -> bool).
Hypothesis rndP : forall x : F, `|x - (rnd x)%:~R| <= 2^-1.
Hypothesis near_refl : forall x, near x x.
Local Notation gsc := (@gs_coefficient F 2).
Definition shear : 'M[F]_2 := \matrix_(i, j) if i == j then 1 else if i == 1 then 3%:R else 0.
Lemma enum_ord2 : enum 'I_2 = [:: 0; 1].
Proof. by apply: (inj_map val_inj); rewrite val_enum_ord. Qed.
Lemma shear_vecs : lvecs (lll_init rnd gsc shear) = 1%:M /\ lstar (lll_init rnd gsc shear) = 1%:M.
Proof.
have b0 : below (0 : 'I_2) = [::] by rewrite /below enum_ord2.
have b1 : below (1 : 'I_2) = [:: 0] by rewrite /below enum_ord2.
have co : gsc (row 1 shear) (row 0 shear) = 3%:R.
  by rewrite /gs_coefficient /dot !big_ord_recl !big_ord0 !mxE /= !mulr1 !mulr0 !addr0 divr1.
rewrite /lll_init enum_ord2 /= /init_row b0 b1 /= /ll_reduce b0 b1 /= /project_out /= co /reduce_with /=.
have -> : rnd (set_entry (1%:M : 'M[F]_2) 1 0 3%:R 1 0) = 3%:Z by rewrite mxE /= (rnd_int rndP 3).
have o2 (i : 'I_2) : i = 0 \/ i = 1 by case: i => [[|[|]]] // p; [left|right]; apply: val_inj.
by split; apply/matrixP => i j; rewrite !mxE; case: (o2 i) => ->; case: (o2 j) => ->;
  rewrite ?mxE /= ?mxE /= ?mulr1 ?mulr0 ?subrr ?subr0.
Qed.
Theorem C56_transformation_refuted fuel c : (0 < fuel)%N -> 1 < c -> exists V T,
  [/\ lll rnd gsc near fuel shear c = Some (Ok (V, T)), row_free shear, V = 1%:M & map_mx intr T *m V != shear].
Proof.
move=> f0 c1; have [ev es] := shear_vecs.
have fr : row_free shear.
  rewrite -row_leq_rank mxrank_unit // unitmxE (expand_det_row _ 0) !big_ord_recl big_ord0 !mxE /= mul0r !addr0 mul1r.
  by rewrite /cofactor det_mx11 !mxE /= expr0 mul1r unitr1.
have E : lll_loop rnd gsc fuel c 0 (lll_init rnd gsc shear) = Some (lll_init rnd gsc shear).
  case: fuel f0 => // fuel _ /=; rewrite es.
  have n1 (k : 'I_2) : dot (row k (1%:M : 'M[F]_2)) (row k 1%:M) = 1.
    by rewrite /dot !big_ord_recl big_ord0 !mxE; case: k => [[|[|]]] //= p; rewrite ?mulr1 ?mulr0 ?addr0 ?add0r.
  rewrite !n1 mulr1 c1; case: (fuel) => //.
have [r Er] : exists r, lll rnd gsc near fuel shear c = Some r.
  by rewrite /lll E /=; case: ifP => _; [|case: ifP => _]; eexists.
have [V [T [e uT eV sl red]]] := C56_lll rndP near_refl fr Er.
have V1 : V = 1%:M.
  by move: Er; rewrite e /lll E /=; case: ifP => // _; case: ifP => // _ [<-].
exists V, T; split=> //; first by rewrite Er e.
rewrite V1 mulmx1; apply/eqP => eT; move: eV; rewrite V1 -map_trmx eT.
move/matrixP/(_ 0 0)/eqP; rewrite mxE !mxE !big_ord_recl big_ord0 !mxE /= mulr1 addr0 -[X in X == _]addr0 (inj_eq (addrI _)).
by rewrite eq_sym mulf_eq0 pnatr_eq0.
Qed.
End Shear.

Print Assumptions C56_lattice.
Print Assumptions C56_lll.
Print Assumptions C56_transformation_refuted.
