(* C104: lll terminates *)
From mathcomp Require Import all_ssreflect all_fingroup all_algebra.
From mathcomp Require Import zify.
From Verif Require Import Prelude RingTac LinSpan NullSpec Complement LLL PropLLL CVP PropCVP.
From Verif Require PropBravais2.

Set Implicit Arguments.
Unset Strict Implicit.
Unset Printing Implicit Defensive.
Import Order.TTheory GRing.Theory Num.Theory.
Local Open Scope ring_scope.

(* ---- one exchange, in terms of the squared lengths r_k of the Gram-Schmidt vectors ---- *)
Section Lengths.
Variables (F : rcfType) (m d : nat).
Local Notation N := m.+1.
Local Notation gsc := (@gs_coefficient F d).
Implicit Types (i j k l : 'I_N) (s w : lstate F m d).
Let R := [comRingType of F].
Add Ring Rr : (R_ring R).

Definition len2 s k : F := dot (row k (lstar s)) (row k (lstar s)).
Definition ok s : Prop := row_free (lvecs s) /\ gram_schmidt (lvecs s) (lstar s) (lu s).
Lemma star_nz s : ok s -> forall k, row k (lstar s) != 0.
Proof. by case=> f G; apply: star_nonzero G f. Qed.
Lemma len2_gt0 s k : ok s -> 0 < len2 s k.
Proof. by move=> o; rewrite lt_neqAle dot_ge0 andbT eq_sym dot_eq0 star_nz. Qed.
(* the vectors determine the rest of the state *)
Lemma star_gs s : ok s -> lstar s = gs gsc (lvecs s).
Proof. by move=> o; case: (o) => f G; rewrite (gs_exact G (star_nz o)). Qed.
Lemma ok_inj s w : ok s -> ok w -> lvecs s = lvecs w -> s = w.
Proof.
move=> os ow e; have e1 : lstar s = lstar w by rewrite !star_gs // e.
case: os ow => f [es _ _] [_ [ew _ _]].
have fS : row_free (lstar s).
  rewrite -row_leq_rank; apply: leq_trans (mxrankM_maxr (lu s) _); by rewrite -es row_leq_rank.
have e2 : lu s = lu w by apply: (row_free_inj fS); rewrite -es e1 -ew.
by case: s w e e1 e2 {es ew f fS} => [a b x] [a' b' x'] /= -> -> ->.
Qed.
Lemma coef_gsc s k l : ok s -> lu s k l = gsc (row k (lvecs s)) (row l (lstar s)).
Proof.
move=> o; case: (o) => f [e _ orth]; rewrite /gs_coefficient e rows_mul dot_suml (bigD1 l) //= big1 ?addr0 => [|a al].
  by rewrite dotZl mulfK // dot_eq0 star_nz.
by rewrite dotZl orth // mulr0.
Qed.
(* Pythagoras *)
Lemma norm_row s k : ok s -> dot (row k (lvecs s)) (row k (lvecs s)) = \sum_l lu s k l ^+ 2 * len2 s l.
Proof.
case=> f [e _ orth]; rewrite e rows_mul dot_suml; apply: eq_bigr => l _.
rewrite dotZl dotC dot_suml (bigD1 l) //= big1 ?addr0 => [|a al]; first by rewrite dotZl mulrA -expr2.
by rewrite dotZl orth // mulr0.
Qed.

(* the reduction of one row *)
Variable rnd : F -> int.
Hypothesis rndP : forall x : F, `|x - (rnd x)%:~R| <= 2^-1.
Lemma reduce_fold (rd : F -> int) j (ls : seq 'I_N) s : ok s -> {subset ls <= below j} ->
  let w := foldl (reduce_with rd j) s ls in [/\ ok w, lstar w = lstar s,
    forall k, k != j -> row k (lvecs w) = row k (lvecs s) & forall k, k != j -> row k (lu w) = row k (lu s)].
Proof.
elim: ls s => [//|x ls IH] s o sub; have xj : (x < j)%N by rewrite -mem_below sub // mem_head.
have [G e] := reduce_with_gs rd xj (proj2 o).
have o1 : ok (reduce_with rd j s x).
  split=> //; have /same_free : same_lattice (lvecs s) (lvecs (reduce_with rd j s x)).
    by apply: same_row; rewrite -val_eqE /= neq_ltn xj orbT.
  by apply; case: o.
have [|h1 h2 h3 h4] := IH _ o1; first by move=> y hy; apply: sub; rewrite inE hy orbT.
split=> // k kj; [rewrite [LHS]h3 //|rewrite [LHS]h4 //]; by rewrite row_set (negPf kj).
Qed.
Lemma reduce_facts (rd : F -> int) j s : ok s -> let w := ll_reduce rd j s in [/\ ok w, lstar w = lstar s,
    forall k, k != j -> row k (lvecs w) = row k (lvecs s) & forall k, k != j -> row k (lu w) = row k (lu s)].
Proof. by move=> o; apply: reduce_fold => // x; rewrite mem_rev. Qed.
Lemma reduce_rows (rd : F -> int) j s k l : ok s -> k != j -> lu (ll_reduce rd j s) k l = lu s k l.
Proof. by move=> o kj; have [_ _ _ /(_ k kj) /rowP /(_ l)] := reduce_facts rd j o; rewrite !mxE. Qed.
(* the coefficient before the diagonal changes by an integer *)
Lemma reduce_last (rd : F -> int) i j s : ok s -> j = i.+1 :> nat -> exists q : int, lu (ll_reduce rd j s) j i = lu s j i - q%:~R.
Proof.
move=> o ij; rewrite /ll_reduce; have : {subset rev (below j) <= below j} by move=> x; rewrite mem_rev.
elim: (rev _) s o => [|x ls IH] s o sub; first by exists 0; rewrite subr0.
have xj : (x < j)%N by rewrite -mem_below sub // mem_head.
have [|o1 _ _ _] := @reduce_fold rd j [:: x] s o; first by move=> y; rewrite inE => /eqP ->; rewrite mem_below.
have [|q e] := IH _ o1; first by move=> y hy; apply: sub; rewrite inE hy orbT.
rewrite [foldl _ _ _]/=; rewrite e /= set_rowE eqxx !mxE; case: o => _ [_ [l1 l2] _].
case: (eqVneq x i) => [->|xi]; first by exists (rd (lu s j i) + q); rewrite l1 mulr1 rmorphD /= opprD addrA.
exists q; rewrite (l2 x i) ?mulr0 ?subr0 //; move: xj; rewrite ij ltnS leq_eqVlt => /orP[/eqP h|//].
by move/eqP: xi; case; apply: val_inj.
Qed.
(* afterwards all coefficients are at most 1/2 *)
Lemma reduce_small j s : ok s -> forall k, (k < j)%N -> `|lu (ll_reduce rnd j s) j k| <= 2^-1.
Proof.
move=> o k kj; rewrite /ll_reduce.
suff H (ls : seq 'I_N) s1 : ok s1 -> {subset ls <= below j} -> sorted (fun x y : 'I_N => (y < x)%N) ls ->
    (forall x, x \in ls -> `|lu (foldl (reduce_with rnd j) s1 ls) j x| <= 2^-1) /\
    (forall x : 'I_N, (x < j)%N -> all (fun y : 'I_N => (y < x)%N) ls -> lu (foldl (reduce_with rnd j) s1 ls) j x = lu s1 j x).
  have [||h _] := H (rev (below j)) s o; first by move=> x; rewrite mem_rev.
    rewrite rev_sorted; apply: sorted_filter; first by move=> x y z; apply: ltn_trans.
    by rewrite -(@sorted_map _ _ val ltn) val_enum_ord iota_ltn_sorted.
  by apply: h; rewrite mem_rev mem_below.
elim: ls s1 => [|x ls IH] s1 o1 sub so; first by split.
have xj : (x < j)%N by rewrite -mem_below sub // mem_head.
have [|o2 _ _ _] := @reduce_fold rnd j [:: x] s1 o1; first by move=> y; rewrite inE => /eqP ->; rewrite mem_below.
have al : all (fun y : 'I_N => (y < x)%N) ls.
  by move: so => /=; rewrite path_sortedE; [case/andP|move=> a b c h1 h2; apply: ltn_trans h2 h1].
have [||h1 h2] := IH _ o2; [by move=> y hy; apply: sub; rewrite inE hy orbT|exact: path_sorted so|].
case: o1 => _ [_ [l1 l2] _]; split=> [y|y yj].
  rewrite inE => /orP[/eqP ->|]; last exact: h1.
  by rewrite [foldl _ _ _]/= [lu _ _ _]h2 //= set_rowE eqxx !mxE l1 mulr1.
rewrite [all _ _]/= => /andP[xy ya]; rewrite [foldl _ _ _]/= [LHS]h2 //= set_rowE eqxx !mxE (l2 x y) // mulr0 subr0 //.
Qed.
Lemma reduce_id j s : ll_reduce (fun=> 0) j s = s.
Proof.
rewrite /ll_reduce; elim: (rev _) s => [//|x ls IH] s /=.
have -> : reduce_with (fun=> 0) j s x = s; last exact: IH.
case: s => V S u; rewrite /reduce_with /=; congr LState.
  by apply/row_matrixP => a; rewrite row_set scale0r subr0; case: eqP => [->|].
by apply/row_matrixP => a; rewrite row_set scale0r subr0; case: eqP => [->|].
Qed.

(* the exchange without the reduction *)
Definition swap i j s := exchange (fun=> 0) gsc i j s.
Lemma exchangeE i j s : exchange rnd gsc i j s =
  if 2^-1 < `|lu (swap i j s) j i| then ll_reduce rnd j (swap i j s) else swap i j s.
Proof. by rewrite /swap /exchange reduce_id; case: ifP => h; rewrite h. Qed.
Lemma swap_vecs i j s : lvecs (swap i j s) = xrow i j (lvecs s).
Proof. by rewrite /swap /exchange reduce_id; case: ifP. Qed.
Lemma swap_ok i j s : j = i.+1 :> nat -> ok s -> ok (swap i j s).
Proof.
move=> ij o; have [G _ _ _] := exchange_gs (fun=> 0) ij (proj2 o) (star_nz o); split=> //.
by apply: same_free (exchange_same (fun=> 0) gsc i j s) _; case: o.
Qed.
Lemma swap_len i j s : j = i.+1 :> nat -> ok s -> let w := swap i j s in
  [/\ len2 w i = len2 s j + lu s j i ^+ 2 * len2 s i, len2 w i * len2 w j = len2 s i * len2 s j,
      forall k, k != i -> k != j -> len2 w k = len2 s k & lu w j i * len2 w i = lu s j i * len2 s i].
Proof.
move=> ij o; have ow := swap_ok ij o; have nz := star_nz o; have oo := o; case: oo => f G.
have [_ e1 e2 e3] := exchange_gs (fun=> 0) ij G nz; rewrite -/(swap i j s) in e1 e2 e3.
have nij : i != j by rewrite -val_eqE /= ij neq_ltn ltnSn.
have oij : dot (row j (lstar s)) (row i (lstar s)) = 0 by case: G => _ _; apply; rewrite eq_sym.
set T := row j (lstar s) + lu s j i *: row i (lstar s) in e1 e2.
have TT : dot T T = len2 s j + lu s j i ^+ 2 * len2 s i.
  rewrite /T dotDl !dotDr !dotZl !dotZr oij (dotC (row i _) (row j _)) oij -/(len2 s j) -/(len2 s i).
  by rewrite mulr0 add0r addr0 mulrA -expr2.
have iT : dot (row i (lstar s)) T = lu s j i * len2 s i by rewrite /T dotDr dotZr (dotC (row i _) (row j _)) oij add0r.
have T0 : dot T T != 0 by rewrite dot_eq0 -e1 star_nz.
have aT : gsc (row i (lvecs s)) T * dot T T = lu s j i * len2 s i.
  have := aE ij G; rewrite /= -/T => ->; by rewrite /gs_coefficient iT divfK.
have li : len2 (swap i j s) i = dot T T by rewrite /len2 e1.
split.
- by rewrite li TT.
- rewrite li /len2 e2; move: aT; move: (gsc _ _) => a aT.
  rewrite !dotBl dotC dotBl [dot (_ *: T) (_ - _)]dotC dotBl !dotZl !dotZr !(dotC T) iT -/(len2 s i) -/(len2 s j).
  move: aT TT; move: (dot T T) (len2 s i) (len2 s j) (lu s j i) => t x y u aT TT.
  have -> : t * (x - a * (u * x) - (a * (u * x) - a * (a * t))) = t * x - a * t * (u * x) *+ 2 + (a * t) ^+ 2.
    by rewrite mulr2n expr2; ringm R.
  rewrite aT TT mulr2n !expr2; ringm R.
- by move=> k ki kj; rewrite /len2 e3.
by rewrite (coef_gsc _ _ ow) li e1 swap_vecs row_xrow tpermR.
Qed.
End Lengths.

(* ---- the potential and the bounds ---- *)
Section Step.
Variables (F : rcfType) (m d : nat).
Local Notation N := m.+1.
Local Notation gsc := (@gs_coefficient F d).
Implicit Types (i j k l : 'I_N) (s w : lstate F m d).
Let R := [comRingType of F].
Add Ring Rr : (R_ring R).
Variable rnd : F -> int.
Hypothesis rndP : forall x : F, `|x - (rnd x)%:~R| <= 2^-1.
Local Notation exch := (exchange rnd gsc).

Lemma half01 : 0 < 2^-1 :> F /\ 2^-1 < 1 :> F.
Proof. by rewrite invr_gt0 ltr0n invf_lt1 ?ltr0n // ltr1n. Qed.
Definition potential (f : 'I_N -> F) : F := \prod_k f k ^+ (N - k).
Lemma potential_lt (f g : 'I_N -> F) i j : j = i.+1 :> nat -> (forall k, 0 < g k) -> (forall k, k != i -> k != j -> f k = g k) ->
  f i * f j = g i * g j -> f i < g i -> potential f < potential g.
Proof.
move=> ij g0 fg e lt; have nij : i != j by rewrite -val_eqE /= ij neq_ltn ltnSn.
rewrite /potential (bigD1 i) //= (bigD1 j) 1?eq_sym //= mulrA [X in _ < X](bigD1 i) //= [X in _ < _ * X](bigD1 j) 1?eq_sym //= mulrA.
rewrite (eq_bigr (fun k => g k ^+ (N - k))) => [|k /andP[ki kj]]; last by rewrite fg.
rewrite ltr_pmul2r; last by apply: prodr_gt0 => k _; rewrite exprn_gt0.
have -> : (N - i = (N - j).+1)%N by rewrite ij subnSK // ltn_ord.
have E (x y : F) (e' : nat) : x ^+ e'.+1 * y ^+ e' = (x * y) ^+ e' * x by rewrite exprSr exprMn mulrAC.
by rewrite !E e ltr_pmul2l // exprn_gt0 // mulr_gt0.
Qed.

Definition bounded (M A : F) s : Prop :=
  (forall k, len2 s k <= M) /\ (forall k, dot (row k (lvecs s)) (row k (lvecs s)) <= A).
Lemma small_row M s k : ok s -> (forall l : 'I_N, (l < k)%N -> `|lu s k l| <= 2^-1) -> (forall l, len2 s l <= M) ->
  dot (row k (lvecs s)) (row k (lvecs s)) <= N%:R * M.
Proof.
move=> o sm le; rewrite norm_row //; apply: (@le_trans _ _ (\sum_(l < N) M)); last by rewrite sumr_const card_ord mulr_natl.
apply: ler_sum => l _; apply: le_trans (le l); rewrite ler_pimull ?(ltW (len2_gt0 _ o)) //.
rewrite -real_normK ?num_real // expr_le1 //; case: (o) => _ [_ [l1 l2] _].
case: (ltngtP l k) => [lt|gt|eq]; last by rewrite (val_inj eq) l1 normr1.
  by apply: le_trans (sm _ lt) _; apply: ltW; case: half01.
by rewrite l2 // normr0 ler01.
Qed.
Lemma exch_ok i j s : j = i.+1 :> nat -> ok s -> ok (exch i j s).
Proof.
move=> ij o; have ow := swap_ok ij o; rewrite exchangeE; case: ifP => // _.
by case: (reduce_facts rnd j ow).
Qed.
Lemma exch_len i j s k : j = i.+1 :> nat -> ok s -> len2 (exch i j s) k = len2 (swap i j s) k.
Proof.
move=> ij o; have ow := swap_ok ij o; rewrite exchangeE; case: ifP => // _.
by case: (reduce_facts rnd j ow) => _ e _ _; rewrite /len2 e.
Qed.
(* the vectors after an exchange *)
Lemma exch_bounded M A i j s : j = i.+1 :> nat -> ok s -> N%:R * M <= A -> (forall k, len2 (swap i j s) k <= M) ->
  (forall k, dot (row k (lvecs (swap i j s))) (row k (lvecs (swap i j s))) <= A) -> bounded M A (exch i j s).
Proof.
move=> ij o MA le bd; split=> [k|k]; first by rewrite exch_len.
have ow := swap_ok ij o; rewrite exchangeE; case: ifP => // _.
have [o2 e2 e3 e4] := reduce_facts rnd j ow.
case: (eqVneq k j) => [->|kj]; last by rewrite e3.
apply: le_trans MA; apply: small_row => // l; first exact: reduce_small.
by rewrite /len2 e2; exact: (le l).
Qed.
Lemma swap_rows A i j s : (forall k, dot (row k (lvecs s)) (row k (lvecs s)) <= A) ->
  forall k, dot (row k (lvecs (swap i j s))) (row k (lvecs (swap i j s))) <= A.
Proof. by move=> h k; rewrite swap_vecs row_xrow. Qed.

(* the decisive estimates *)
Lemma second_le (r t r' t' M : F) : 0 < t -> 0 < r -> t <= r' -> r' * t' = r * t -> r <= M -> t' <= M.
Proof.
move=> t0 r0 tr e rM; apply: le_trans rM; have r'0 := lt_le_trans t0 tr.
by rewrite -(ler_pmul2l r'0) e mulrC ler_pmul2r.
Qed.
(* the result of one pass: the exchange, or two exchanges if the first one does not make the vector shorter *)
Definition passes c i s s2 : Prop := forall fuel2 s', lll_loop rnd gsc fuel2 c i.-1 s2 = Some s' ->
  exists fuel, lll_loop rnd gsc fuel c i s = Some s'.
Lemma loop_fail c i j s : j = i.+1 :> nat -> len2 s i < c * len2 s j = false -> passes c i s (exch i j s).
Proof.
move=> ij h fuel s' E; exists fuel.+1 => /=.
have im : (i < m)%N by rewrite -ltnS -ij ltn_ord.
have -> : inord i.+1 = j by apply: val_inj; rewrite /= inordK ?ij // ltnS.
by rewrite im inord_val -/(len2 s i) -/(len2 s j) h.
Qed.
Lemma loop_pass c i j s fuel s' : j = i.+1 :> nat -> len2 s i < c * len2 s j ->
  lll_loop rnd gsc fuel c i.+1 s = Some s' -> exists fuel', lll_loop rnd gsc fuel' c i s = Some s'.
Proof.
move=> ij h E; exists fuel.+1 => /=.
have im : (i < m)%N by rewrite -ltnS -ij ltn_ord.
have -> : inord i.+1 = j by apply: val_inj; rewrite /= inordK ?ij // ltnS.
by rewrite im inord_val -/(len2 s i) -/(len2 s j) h.
Qed.
Lemma one_pass c M A i j s : 4%:R / 3%:R < c -> j = i.+1 :> nat -> ok s -> bounded M A s -> N%:R * M <= A ->
  (forall a b : 'I_N, (a < i)%N -> b = a.+1 :> nat -> len2 s a < c * len2 s b) -> len2 s i < c * len2 s j = false ->
  exists s2, [/\ passes c i s s2, ok s2 /\ same_lattice (lvecs s) (lvecs s2), bounded M A s2,
    forall k, k != i -> k != j -> len2 s2 k = len2 s k &
    potential (len2 s2) < potential (len2 s) \/ s2 = ll_reduce rnd j s /\ 2^-1 < `|lu s j i|].
Proof.
move=> c43 ij o [bM bA] MA lt nt; have nij : i != j by rewrite -val_eqE /= ij neq_ltn ltnSn.
have c0 : 0 < c by apply: lt_trans c43; rewrite divr_gt0 ?ltr0n.
pose w := swap i j s; have ow : ok w := swap_ok ij o; have [w1 w2 w3 w4] := swap_len ij o; rewrite -/w in w1 w2 w3 w4.
have r0 := len2_gt0 i o; have t0 := len2_gt0 j o; have r'0 := len2_gt0 i ow; have t'0 := len2_gt0 j ow.
have tr' : len2 s j <= len2 w i by rewrite w1 ler_addl mulr_ge0 ?sqr_ge0 ?(ltW r0).
have ne k (x y : lstate F m d) : len2 x i <= M -> len2 x j <= M -> (forall k, k != i -> k != j -> len2 x k = len2 y k) ->
    (forall k, len2 y k <= M) -> len2 x k <= M.
  by move=> h1 h2 h3 h4; case: (eqVneq k i) => [->//|ki]; case: (eqVneq k j) => [->//|kj]; rewrite h3.
have t'M : len2 w j <= M by apply: second_le w2 (bM i).
case: (ltP (len2 w i) (len2 s i)) => [good|bad].
  exists (exch i j s); split; [exact: loop_fail| | | |left].
  - by split; [exact: exch_ok|exact: exchange_same].
  - apply: exch_bounded => // [k|]; last exact: swap_rows.
    by apply: (ne _ _ s) => //; apply: le_trans (ltW good) (bM i).
  - by move=> k ki kj; rewrite exch_len // w3.
  have -> : potential (len2 (exch i j s)) = potential (len2 w) by apply: eq_bigr => k _; rewrite exch_len.
  by apply: (potential_lt ij) => // k; apply: len2_gt0.
have ct : c * len2 s j <= len2 s i by rewrite leNgt nt.
have big : 2^-1 < `|lu s j i|.
  rewrite ltNge; apply/negP => small; move: bad; rewrite leNgt w1 => /negP; apply.
  have u4 : lu s j i ^+ 2 <= 4%:R^-1.
    rewrite -real_normK ?num_real //; have -> : 4%:R^-1 = 2^-1 ^+ 2 :> F by rewrite exprVn -natrX.
    by rewrite ler_expn2r ?nnegrE // ltW //; case: half01.
  have t34 : len2 s j < 3%:R / 4%:R * len2 s i.
    rewrite -(ltr_pmul2l c0); apply: le_lt_trans ct _; rewrite mulrA ltr_pmull //.
    by rewrite -[X in X < _](_ : 4%:R / 3%:R * (3%:R / 4%:R) = 1) ?ltr_pmul2r ?divr_gt0 ?ltr0n // mulrA divfK ?divff ?pnatr_eq0.
  apply: lt_le_trans (ltr_le_add t34 (ler_wpmul2r (ltW r0) u4)) _; rewrite -mulrDl.
  have -> : 3%:R / 4%:R + 4%:R^-1 = 1 :> F by rewrite -[X in _ + X]mul1r -mulrDl -[X in _ + X]/(1%:R) -natrD divff ?pnatr_eq0.
  by rewrite mul1r.
pose s1 := exch i j s; have o1 : ok s1 := exch_ok ij o.
have l1 k : len2 s1 k = len2 w k := exch_len k ij o.
have nt1 : len2 s1 i < c * len2 s1 j = false.
  apply: negbTE; rewrite -leNgt !l1 -(ler_pmul2r r'0) -mulrA [len2 w j * _]mulrC w2 mulrCA.
  apply: le_trans (ler_wpmul2l (ltW r0) ct) _; exact: (ler_pmul (ltW r0) (ltW r0) bad bad).
have P : passes c i s (exch i j s1).
  move=> f s' E; have [f1 E1] := loop_fail ij nt1 E; case: (posnP i) => [i0|i0].
    by move: (E1); rewrite {1}i0 => E2; apply: (loop_fail ij nt); rewrite i0 /=; exact: E2.
  have ha : (i.-1 < N)%N by apply: leq_ltn_trans (leq_pred _) (ltn_ord i).
  pose a := Ordinal ha; have ea : i = a.+1 :> nat by rewrite /= prednK.
  have ai : (a < i)%N by rewrite ea.
  have E1' : lll_loop rnd gsc f1 c a.+1 s1 = Some s' by rewrite -ea.
  have [|f2 E2] := loop_pass ea _ E1'; last exact: (loop_fail ij nt) E2.
  rewrite !l1 (w3 a); [|by rewrite -val_eqE /= ltn_eqF|by rewrite -val_eqE /= ij ltn_eqF // (leq_ltn_trans (leq_pred _))].
  by apply: lt_le_trans (lt _ _ ai ea) _; rewrite ler_pmul2l.
case hu: (2^-1 < `|lu w j i|); last first.
  have e1 : s1 = w by rewrite /s1 exchangeE -/w hu.
  have sw : swap i j w = s.
    apply: ok_inj (swap_ok ij ow) o _; rewrite !swap_vecs; apply/row_matrixP => k.
    by rewrite !row_xrow tpermK.
  have e2 : exch i j s1 = ll_reduce rnd j s by rewrite e1 exchangeE sw big.
  have [o2 st v2 _] := reduce_facts rnd j o.
  exists (exch i j s1); split=> //; rewrite ?e2; last by right.
  - by split=> //; apply: reduce_same.
  - split=> k; first by rewrite /len2 st; exact: (bM k).
    case: (eqVneq k j) => [->|kj]; last by rewrite v2.
    apply: le_trans MA; apply: small_row => // l; first exact: reduce_small.
    by rewrite /len2 st; exact: (bM l).
  by move=> k _ _; rewrite /len2 st.
have e1 : s1 = ll_reduce rnd j w by rewrite /s1 exchangeE -/w hu.
pose x := swap i j s1; have ox : ok x := swap_ok ij o1.
have [x1 x2 x3 _] := swap_len ij o1; rewrite -/x !l1 in x1 x2 x3.
have small : forall l : 'I_N, (l < j)%N -> `|lu s1 j l| <= 2^-1 by move=> l lj; rewrite e1 reduce_small.
have [q eq] : exists q : int, lu s1 j i = lu w j i - q%:~R by rewrite e1; apply: reduce_last.
have si : `|lu s1 j i| <= 2^-1 by apply: small; rewrite ij.
(* the first vector of the original state in terms of the exchanged one *)
have back : len2 s i = len2 w j + lu w j i ^+ 2 * len2 w i.
  apply: (mulIf (lt0r_neq0 r'0)); rewrite mulrDl [len2 w j * _]mulrC w2.
  rewrite [in RHS](_ : _ * _ * _ = (lu w j i * len2 w i) ^+ 2); last by rewrite !expr2; ringm R.
  by rewrite w4 w1 !expr2; ringm R.
have shorter : len2 x i < len2 s i.
  rewrite x1 back ltr_add2l ltr_pmul2r // -[X in X < _]real_normK ?num_real // -[X in _ < X]real_normK ?num_real //.
  by rewrite ltr_expn2r ?nnegrE ?normr_ge0 //; apply: le_lt_trans si hu.
have q0 : q != 0 by apply: contraTneq hu => e; rewrite -leNgt; move: si; rewrite eq e subr0.
have longer : len2 s j <= len2 x i.
  have -> : len2 x i = (1 - q%:~R * lu s j i) ^+ 2 * len2 s i + q%:~R ^+ 2 * len2 s j.
    rewrite x1 eq; apply: (mulIf (lt0r_neq0 r'0)); rewrite mulrDl [len2 w j * _]mulrC w2.
    rewrite [in LHS](_ : _ * _ * _ = (lu w j i * len2 w i - q%:~R * len2 w i) ^+ 2); last by rewrite !expr2; ringm R.
    by rewrite w4 w1 !expr2; ringm R.
  apply: ler_paddl; first by rewrite mulr_ge0 ?sqr_ge0 ?(ltW r0).
  have : 1 <= (q ^+ 2)%:~R :> F by rewrite ler1z -gtz0_ge1 exprn_even_gt0.
  by rewrite rmorphX /= ler_pmull.
have xM k : len2 x k <= M.
  apply: (ne _ _ s) => //; first exact: le_trans (ltW shorter) (bM i).
    by apply: second_le longer _ (bM i) => //; rewrite x2 w2.
  by move=> l li lj; rewrite x3 // l1 w3.
exists (exch i j s1); split=> //.
- split; first exact: exch_ok.
  by apply: same_trans (exchange_same rnd gsc i j s) (exchange_same rnd gsc i j s1).
- apply: exch_bounded => // k; rewrite -/x.
  case: (eqVneq k i) => [->|ki].
    apply: le_trans MA; apply: small_row => // l li.
    have lj : (l < j)%N by rewrite ij ltnS ltnW.
    have nli : l != i by rewrite -val_eqE ltn_eqF.
    have nlj : l != j by rewrite -val_eqE ltn_eqF.
    suff -> : lu x i l = lu s1 j l by apply: small.
    rewrite !coef_gsc // swap_vecs row_xrow tpermL; congr (gsc _ _).
    by have [_ _ _ ->] := exchange_gs (fun=> 0) ij (proj2 o1) (star_nz o1).
  rewrite swap_vecs row_xrow; case: (eqVneq k j) => [->|kj]; rewrite ?tpermR ?tpermI // e1.
    by have [_ _ -> //] := reduce_facts rnd j ow; rewrite swap_vecs row_xrow tpermL.
  by have [_ _ -> //] := reduce_facts rnd j ow; rewrite swap_vecs row_xrow tpermI.
- by move=> k ki kj; rewrite exch_len // x3 // l1 w3.
left; have -> : potential (len2 (exch i j s1)) = potential (len2 x) by apply: eq_bigr => k _; rewrite exch_len.
apply: (potential_lt ij) => // [k|k ki kj|]; first exact: len2_gt0.
  by rewrite x3 // l1 w3.
by rewrite x2 w2.
Qed.
End Step.

(* ---- only finitely many bases are visited ---- *)
Section Finite.
Variables (F : rcfType) (m d : nat).
Local Notation N := m.+1.
Local Notation gsc := (@gs_coefficient F d).
Implicit Types (i j k l : 'I_N) (s w : lstate F m d).
Variable rnd : F -> int.
Hypothesis rndP : forall x : F, `|x - (rnd x)%:~R| <= 2^-1.
Local Notation exch := (exchange rnd gsc).
(* the contract of the rounding makes the field archimedean *)
Lemma archimedes (x : F) : exists n : nat, x <= n%:R.
Proof.
exists (`|rnd x| + 1)%N; have := ler_norml (x - (rnd x)%:~R) 2^-1; rewrite rndP => /esym/andP[_ h].
rewrite natrD; move: h; rewrite ler_subl_addl => h; apply: le_trans h _.
apply: ler_add; last by rewrite ltW //; case: (half01 F).
by rewrite pmulrn abszE ler_int ler_norm.
Qed.
Variable B : 'M[F]_(N, d).
Hypothesis fB : row_free B.
Section Codes.
Variable K : nat.
Definition decode (t : 'M['I_(K + K).+1]_N) : 'M[F]_(N, d) := map_mx intr (\matrix_(a, b) ((t a b)%:Z - K%:Z)) *m B.
Lemma decode_onto (T : 'M[int]_N) : (forall a b, (absz (T a b) <= K)%N) -> exists t, decode t = map_mx intr T *m B.
Proof.
move=> le; exists (\matrix_(a, b) inord (absz (T a b + K%:Z))); congr (map_mx _ _ *m _); apply/matrixP => a b.
by rewrite !mxE inordK; have := le a b; lia.
Qed.
Definition gs_len2 (V : 'M[F]_(N, d)) k : F := dot (row k (gs gsc V)) (row k (gs gsc V)).
Definition rank s : nat := #|[set t | potential (gs_len2 (decode t)) < potential (len2 s)]|.
Lemma rank_lt s w t : ok w -> decode t = lvecs w -> potential (len2 w) < potential (len2 s) -> (rank w < rank s)%N.
Proof.
move=> ow e lt; apply: proper_card; apply/properP; split.
  by apply/subsetP => x; rewrite !inE => h; apply: lt_trans lt.
have ew : potential (gs_len2 (decode t)) = potential (len2 w) by rewrite e /gs_len2 -star_gs.
by exists t; rewrite !inE ew ?ltxx.
Qed.
Lemma rank_eq s w : len2 s =1 len2 w -> rank s = rank w.
Proof. by move=> e; rewrite /rank; have -> : potential (len2 s) = potential (len2 w) by apply: eq_bigr => k _; rewrite e. Qed.
End Codes.
Lemma finitely_many (A : F) : exists K, forall V, same_lattice B V -> (forall k, dot (row k V) (row k V) <= A) ->
  exists t, decode (K := K) t = V.
Proof.
pose p b := col b (pinvmx B); pose P := \sum_b dot (p b)^T (p b)^T.
have [K hK] := archimedes (A * P); exists K => V [T uT eV] le.
have eT : V *m pinvmx B = map_mx intr T by rewrite eV -mulmxA mulmxVp // mulmx1.
rewrite eV; apply: decode_onto => a b.
have A0 : 0 <= A by apply: le_trans (dot_ge0 _) (le a).
have Tab : (T a b)%:~R = dot (row a V) (p b)^T :> F.
  have /matrixP /(_ a b) := eT; rewrite !mxE => <-; by apply: eq_bigr => k _; rewrite !mxE.
have : (T a b)%:~R ^+ 2 <= K%:R :> F.
  rewrite Tab; apply: le_trans (cauchy_schwarz _ _) _; apply: le_trans hK; apply: ler_pmul; rewrite ?dot_ge0 //.
  by rewrite /P (bigD1 b) //= ler_addl sumr_ge0 // => k _; apply: dot_ge0.
rewrite -rmorphX /= pmulrn ler_int; move: (T a b) => x; rewrite expr2; nia.
Qed.

(* ---- termination of the main loop ---- *)
Definition bad_pairs s : nat := #|[pred k : 'I_N | (k < m)%N && (2^-1 < `|lu s (inord k.+1) k|)]|.
Lemma bad_pairs_le s : (bad_pairs s <= N)%N.
Proof. by rewrite -[X in (_ <= X)%N]card_ord max_card. Qed.
Lemma bad_reduce i j s : ok s -> j = i.+1 :> nat -> 2^-1 < `|lu s j i| -> (bad_pairs (ll_reduce rnd j s) < bad_pairs s)%N.
Proof.
move=> o ij big; have im : (i < m)%N by rewrite -ltnS -ij ltn_ord.
have ej : inord i.+1 = j by apply: val_inj; rewrite /= inordK ?ij // ltnS.
apply: proper_card; apply/properP; split.
  apply/subsetP => k; rewrite !inE => /andP[km]; rewrite km /=.
  case: (eqVneq k i) => [->|ki]; first by rewrite ej big.
  rewrite reduce_rows // -val_eqE /= inordK ?ij ?eqSS ?val_eqE // ltnS //.
exists i; rewrite !inE ej ?im ?big //= -leNgt; apply: reduce_small => //; by rewrite ij.
Qed.
Theorem loop_terminates c s : 4%:R / 3%:R < c -> ok s -> same_lattice B (lvecs s) ->
  exists fuel s', lll_loop rnd gsc fuel c 0 s = Some s'.
Proof.
move=> c43 o sl.
pose M := \sum_k len2 s k; pose A := N%:R * M + \sum_k dot (row k (lvecs s)) (row k (lvecs s)).
have [K hK] := finitely_many A.
have M0 : 0 <= M by apply: sumr_ge0 => k _; apply: dot_ge0.
have MA : N%:R * M <= A by rewrite ler_addl sumr_ge0 // => k _; apply: dot_ge0.
have bd : bounded M A s.
  split=> k; first by rewrite /M (bigD1 k) //= ler_addl sumr_ge0 // => l _; apply: dot_ge0.
  apply: ler_paddl; first by rewrite mulr_ge0 ?ler0n.
  by rewrite (bigD1 k) //= ler_addl sumr_ge0 // => l _; apply: dot_ge0.
pose mu (i : nat) s := ((rank K s * N.+1 + bad_pairs s) * N.+1 + (m - i))%N.
suff H n : forall (i : nat) s, (mu i s < n)%N -> ok s -> same_lattice B (lvecs s) -> bounded M A s ->
    (forall a b : 'I_N, (a < i)%N -> b = a.+1 :> nat -> len2 s a < c * len2 s b) ->
    exists fuel s', lll_loop rnd gsc fuel c i s = Some s'.
  by apply: (H (mu 0%N s).+1).
clearbody M A; elim: n => [//|n IH] i {o sl bd} s lt o sl bd red.
case: (ltnP i m) => im; last by exists 0%N, s; rewrite /= ltnNge im.
have hi : (i < N)%N by apply: leq_trans im _; apply: leqnSn.
pose a := Ordinal hi; pose b : 'I_N := inord i.+1; have ab : b = a.+1 :> nat by rewrite /= inordK // ltnS.
case test: (len2 s a < c * len2 s b).
  have [|//|//|//|x y|f [s' E]] := IH i.+1 s; last by have [f' E'] := loop_pass ab test E; exists f', s'.
    by move: lt; rewrite /mu; move: (_ * _)%N => z; lia.
  rewrite ltnS leq_eqVlt => /orP[/eqP ex ey|]; last exact: red.
  have -> : x = a by apply: val_inj.
  by have -> : y = b by apply: val_inj; rewrite /= ey ex ab.
have red' : forall x y : 'I_N, (x < a)%N -> y = x.+1 :> nat -> len2 s x < c * len2 s y := red.
have [s2 [ps [o2 sl2] bd2 st dec]] := one_pass rndP c43 ab o bd MA red' test.
have sB : same_lattice B (lvecs s2) by apply: same_trans sl sl2.
have [|//|//|//|x y xi ey|f [s' E]] := IH i.-1 s2.
- have [t et] := hK _ sB (proj2 bd2).
  have b1 := bad_pairs_le s2; suff : (rank K s2 < rank K s)%N \/ (rank K s2 = rank K s /\ bad_pairs s2 < bad_pairs s)%N.
    move: lt; rewrite /mu; move: (rank K s2) (rank K s) (bad_pairs s2) (bad_pairs s) b1 => r1 r2 p1 p2 b1 h hh.
    clear -im h hh b1.
    have e1 : (m - i.-1 <= N)%N by lia.
    case: hh => [h1|[h1 h2]]; nia.
  case: dec => [lt'|[-> big]]; first by left; apply: rank_lt et lt'.
  right; split; last exact: bad_reduce big.
  by apply: rank_eq => k; have [_ e _ _] := reduce_facts rnd b o; rewrite /len2 e.
- rewrite !st; first by apply: red => //; apply: leq_trans xi (leq_pred _).
  + by rewrite -val_eqE /= ey; case: (i) xi => //= n' xn; rewrite neq_ltn ltnS xn.
  + by rewrite -val_eqE /= ey ab eqSS neq_ltn (leq_trans xi (leq_pred _)).
  + by rewrite -val_eqE /= neq_ltn (leq_trans xi (leq_pred _)).
  by rewrite -val_eqE /= ab neq_ltn (leq_trans xi) // (leq_trans (leq_pred _)).
by have [f' E'] := ps _ _ E; exists f', s'.
Qed.
End Finite.

(* C104: with c > 4/3 lll returns for every basis, after finitely many steps; what it returns is described by C56 *)
Theorem C104_lll (F : rcfType) m d (rnd : F -> int) (near : F -> F -> bool) (B : 'M[F]_(m.+1, d)) c :
  (forall x, `|x - (rnd x)%:~R| <= 2^-1) -> (forall x, near x x) -> row_free B -> 4%:R / 3%:R < c ->
  exists f0 V T, (forall fuel, (f0 <= fuel)%N -> lll rnd (@gs_coefficient F d) near fuel B c = Some (Ok (V, T))) /\
    [/\ T \in unitmx, V = map_mx intr T^T *m B, same_lattice B V & c_reduced V c].
Proof.
move=> rndP near_refl fB c43.
have sl := init_same rnd (@gs_coefficient F d) B; have o : ok (lll_init rnd (@gs_coefficient F d) B).
  by split; [exact: same_free sl fB|exact: init_gs].
have [f0 [s E]] := loop_terminates rndP fB c43 o sl.
have [r Er] : exists r, lll rnd (@gs_coefficient F d) near f0 B c = Some r.
  by rewrite /lll E /=; case: ifP => _; [|case: ifP => _; [|case: ifP => _]]; eexists.
have [V [T [e h1 h2 h3 h4]]] := C56_lll rndP near_refl fB Er; exists f0, V, T; split=> // fuel le.
by rewrite -e; apply: PropBravais2.lll_mono le Er.
Qed.

(* the bound on c cannot be improved: for the triangular lattice and c <= 4/3 the loop never ends *)
Section Triangular.
Variables (F : rcfType) (rnd : F -> int) (near : F -> F -> bool).
Hypothesis rndP : forall x : F, `|x - (rnd x)%:~R| <= 2^-1.
Local Notation gsc := (@gs_coefficient F 2).
Definition triangular : 'M[F]_2 := \matrix_(i, j) if i == 0 then (j == 0)%:R else if j == 0 then 2^-1 else Num.sqrt (3%:R / 4%:R).
Definition stuck (s : lstate F 1 2) : Prop := [/\ ok s, len2 s 0 = 1, len2 s 1 = 3%:R / 4%:R & lu s 1 0 ^+ 2 = 4%:R^-1].
Lemma sqr_half (x : F) : x ^+ 2 = 4%:R^-1 -> (2^-1 < `|x|) = false.
Proof.
move=> e; apply/negbTE; rewrite -leNgt -(@ler_pexpn2r _ 2) ?nnegrE ?invr_ge0 ?ler0n //.
by rewrite real_normK ?num_real // e exprVn -natrX.
Qed.
Lemma stuck_step s : stuck s -> stuck (exchange rnd gsc 0 1 s).
Proof.
case=> o l0 l1 u; have [w1 w2 w3 w4] := @swap_len F 1 2 0 1 s erefl o.
have e0 : len2 (swap 0 1 s) 0 = 1.
  by rewrite w1 l0 l1 u mulr1 -[X in _ + X]mul1r -mulrDl -[X in _ + X]/(1%:R) -natrD divff ?pnatr_eq0.
have eu : lu (swap 0 1 s) 1 0 = lu s 1 0 by move: w4; rewrite e0 l0 !mulr1.
rewrite exchangeE eu sqr_half //; split=> //; [exact: swap_ok|by move: w2; rewrite e0 l0 l1 !mul1r|by rewrite eu].
Qed.
Lemma stuck_loop fuel c s : c <= 4%:R / 3%:R -> stuck s -> lll_loop rnd gsc fuel c 0 s = None.
Proof.
move=> c43; elim: fuel s => [//|fuel IH] s st /=; have [o l0 l1 u] := st.
have -> : inord 0 = 0 :> 'I_2 by apply: val_inj; rewrite /= inordK.
have -> : inord 1 = 1 :> 'I_2 by apply: val_inj; rewrite /= inordK.
rewrite -/(len2 s 0) -/(len2 s 1) l0 l1 ltNge.
suff -> : c * (3%:R / 4%:R) <= 1 by apply: IH; apply: stuck_step.
by rewrite -ler_pdivl_mulr ?divr_gt0 ?ltr0n // mul1r invf_div.
Qed.
Lemma tri_init : stuck (lll_init rnd gsc triangular).
Proof.
have b0 : below (0 : 'I_2) = [::] by rewrite /below enum_ord2.
have b1 : below (1 : 'I_2) = [:: 0] by rewrite /below enum_ord2.
have h3 : 0 <= 3%:R / 4%:R :> F by rewrite divr_ge0 ?ler0n.
have fT : row_free triangular.
  rewrite -row_leq_rank mxrank_unit // unitmxE (expand_det_row _ 0) !big_ord_recl big_ord0 !mxE /= mul0r !addr0 mul1r.
  rewrite /cofactor det_mx11 !mxE /= expr0 mul1r unitfE sqrtr_eq0 -ltNge divr_gt0 ?ltr0n //.
have o : ok (lll_init rnd gsc triangular).
  by split; [exact: same_free (init_same rnd gsc triangular) fT|exact: init_gs].
have co : gsc (row 1 triangular) (row 0 triangular) = 2^-1.
  by rewrite /gs_coefficient /dot !big_ord_recl !big_ord0 !mxE /= !mulr1 !mulr0 !addr0 divr1.
move: o; rewrite /lll_init enum_ord2 /= /init_row b0 b1 /= /ll_reduce b0 b1 /= /project_out /= co /reduce_with /=.
have -> : set_entry (1%:M : 'M[F]_2) 1 0 2^-1 1 0 = 2^-1 by rewrite mxE.
set s := LState _ _ _ => o; split=> //.
- by rewrite /len2 /dot !big_ord_recl big_ord0 !mxE /= ?mxE /= mulr1 mulr0 !addr0.
- rewrite /len2 /dot !big_ord_recl big_ord0 !mxE /= mulr1 mulr0 subrr subr0 mul0r add0r addr0 -expr2.
  by rewrite sqr_sqrtr.
rewrite !mxE /= mulr1; have := rndP 2^-1; move: (rnd _) => q hq.
have : q == 0 \/ q == 1.
  have h2 : 2^-1 + 2^-1 = 1 :> F by rewrite -mulr2n -mulr_natl divff ?pnatr_eq0.
  move: hq; rewrite ler_norml => /andP[g1 g2].
  have q0 : 0 <= q by rewrite -(ler0z F); move: g2; rewrite ler_subl_addr ler_addl.
  have q1 : q <= 1 by rewrite -(lerz1 F); move: g1; rewrite ler_subr_addl ler_subl_addr h2.
  by clear -q0 q1; case: (eqVneq q 0); lia.
have e4 : 2^-1 ^+ 2 = 4%:R^-1 :> F by rewrite exprVn -natrX.
case=> /eqP ->; first by rewrite mulr0z subr0.
rewrite mulr1z -e4; have -> : 2^-1 - 1 = - 2^-1 :> F; last by rewrite sqrrN.
by rewrite [X in _ - X](_ : 1 = 2^-1 + 2^-1) ?opprD ?addrA ?subrr ?add0r // -mulr2n -mulr_natl divff ?pnatr_eq0.
Qed.
Theorem C104_sharp fuel c : c <= 4%:R / 3%:R -> row_free triangular /\ lll rnd gsc near fuel triangular c = None.
Proof.
move=> c43; have [o _ _ _] := tri_init; split.
  by apply: same_free (same_sym (init_same rnd gsc triangular)) _; case: o.
by rewrite /lll stuck_loop //; exact: tri_init.
Qed.
(* with the default parameter, 1.34, it does end *)
Example C104_triangular : (forall x, near x x) -> exists f0 V T,
  lll rnd gsc near f0 triangular (67%:R / 50%:R) = Some (Ok (V, T)) /\ c_reduced V (67%:R / 50%:R).
Proof.
move=> near_refl; have [fr _] := C104_sharp 0 (lexx _).
have c43 : 4%:R / 3%:R < 67%:R / 50%:R :> F.
  by rewrite ltr_pdivr_mulr ?ltr0n // mulrAC ltr_pdivl_mulr ?ltr0n // -!natrM ltr_nat.
have [f0 [V [T [h [_ _ _ red]]]]] := C104_lll rndP near_refl fr c43.
by exists f0, V, T; split=> //; apply: h.
Qed.
End Triangular.

(* in two dimensions bravais_point_group therefore always returns the point group (C103) *)
Theorem C104_bravais (F : rcfType) (n : nat) (cs sn : F -> F) (rnd : F -> int) (near : F -> F -> bool)
    (argsort : forall N, ('rV[int]_N -> F) -> seq 'rV[int]_N -> seq 'rV[int]_N) (group_3d : seq 'rV[F]_3 -> res (seq (PGE.pge F 3 n)))
    (ord : forall d, seq (PGE.pge F d n) -> seq (PGE.pge F d n)) (B : 'M[F]_2) c :
  (forall d, GroupSpec.enumeration (@ord d)) -> (forall x, `|x - (rnd x)%:~R| <= 2^-1) -> (forall x, near x x) ->
  (forall N key (s : seq 'rV[int]_N), perm_eq (argsort _ key s) s) ->
  (forall N key (s : seq 'rV[int]_N), sorted (fun z w => key z <= key w) (argsort _ key s)) ->
  PropPointGroups.trig_table cs sn -> row_free B -> 4%:R / 3%:R < c ->
  exists f0, forall fuel tr ph generators, (f0 <= fuel)%N -> exists G,
    Bravais.bravais_square cs sn rnd (fun N => @gs_coefficient F N) near argsort group_3d ord fuel B c 0 tr ph generators = Some (Ok G).
Proof.
move=> ordP rndP near_refl p1 p2 trig fB c43.
have [f0 [V [T [h _]]]] := C104_lll rndP near_refl fB c43.
exact: (PropBravais2.C103_returns group_3d ordP rndP near_refl p1 p2 trig fB (h f0 (leqnn _))).
Qed.

Print Assumptions C104_lll.
Print Assumptions C104_sharp.
Print Assumptions C104_bravais.
