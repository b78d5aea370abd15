(* C29, C30: rref. *)
From mathcomp Require Import all_ssreflect all_algebra fingroup perm.
From mathcomp Require Import zify.
From Verif Require Import Prelude RealLemmas Tolerance PropTol Rref.

Set Implicit Arguments.
Unset Strict Implicit.
Unset Printing Implicit Defensive.
Import Order.Theory GRing.Theory Num.Theory.
Local Open Scope ring_scope.

Section Ops.
Variables (K : fieldType) (m n : nat).
Implicit Types (A : 'M[K]_(m, n)).

Lemma pivotE (i j : 'I_m) : pivot K i j = tperm_mx i j.
Proof.
apply/matrixP => a b; rewrite !mxE /=; case: tpermP => [->|->|/eqP na /eqP nb].
- rewrite eqxx /=; have [//|nb] := eqVneq b j.
  have [e|nb'] //= := eqVneq b i; rewrite ?andbT ?andbF ?orbF //.
  by rewrite -e (negPf nb).
- rewrite eqxx /=; have [_|nb] := eqVneq b i; first by rewrite orbT.
  have [e|nb'] //= := eqVneq b j; rewrite ?andbT ?andbF ?orbT //.
  by rewrite -e (negPf nb).
- by rewrite (negPf na) (negPf nb).
Qed.

Lemma pivot_unit (i j : 'I_m) : pivot K i j \in unitmx.
Proof. by rewrite pivotE unitmx_perm. Qed.
Lemma pivot_mul (i j : 'I_m) A a b : (pivot K i j *m A) a b = A (tperm i j a) b.
Proof. by rewrite pivotE -xrowE mxE. Qed.

Lemma rowmul_mul (i : 'I_m) c A a b : (rowmul i c *m A) a b = (if a == i then c else 1) * A a b.
Proof.
rewrite !mxE (bigD1 a) //= !mxE eqxx [X in _ + X]big1 ?addr0 => [|k nk]; first by rewrite andbb.
rewrite mxE [a == k]eq_sym (negPf nk).
suff -> : (a == i) && (k == i) = false by rewrite mul0r.
by apply/negP => /andP [/eqP E /eqP E']; rewrite E E' eqxx in nk.
Qed.
Lemma rowsub_mul (i : 'I_m) (co : 'cV[K]_m) A a b :
  (rowsub i co *m A) a b = if a == i then A i b else A a b - co a 0 * A i b.
Proof.
rewrite !mxE; have [->|na] := eqVneq a i.
  rewrite (bigD1 i) //= !mxE !eqxx mul1r big1 ?addr0 // => k nk.
  by rewrite mxE eqxx (negPf nk) [i == k]eq_sym (negPf nk) subr0 mul0r.
rewrite (bigD1 a) //= (bigD1 i) 1?eq_sym //= !mxE !eqxx (negPf na) /= subr0 mul1r [X in _ + (_ + X)]big1 ?addr0.
  by rewrite sub0r mulNr.
move=> k /andP [nk nki]; rewrite mxE (negPf na) (negPf nki) /= [a == k]eq_sym (negPf nk) subr0 mul0r //.
Qed.

End Ops.
Lemma rowmul_unit (K : fieldType) m (i : 'I_m) (c : K) : c != 0 -> rowmul i c \in unitmx.
Proof.
move=> c0; have E : rowmul i c *m rowmul i c^-1 = 1%:M.
  apply/matrixP => a b; rewrite rowmul_mul !mxE.
  have [->|_] := eqVneq a i; rewrite ?mul1r //=; have [_|nb] := eqVneq b i; first by rewrite mulfV.
  by rewrite mulr0.
by case: (mulmx1_unit E).
Qed.
Lemma rowsub_unit (K : fieldType) m (i : 'I_m) (co : 'cV[K]_m) : rowsub i co \in unitmx.
Proof.
have E : rowsub i co *m rowsub i (- co) = 1%:M.
  apply/matrixP => a b; rewrite rowsub_mul !mxE eqxx.
  have [->|na] := eqVneq a i; first by have [_|_] := eqVneq b i; rewrite /= ?subr0.
  have [->|nb] := eqVneq b i; first by rewrite (negPf na) /= mulr1 sub0r opprK subrr.
  by rewrite /= !subr0 mulr0 subr0.
by case: (mulmx1_unit E).
Qed.

(* ---- the specification ---- *)
Section Spec.
Variables (K : fieldType) (m n : nat).
Implicit Types (A : 'M[K]_(m, n)) (ps : seq nat).
(* ps are the pivot columns: increasing, and column ps_k is the k-th unit vector *)
Definition pivots ps A : Prop :=
  [/\ sorted ltn ps, all (fun p => p < n)%N ps, (size ps <= m)%N &
      forall k (i : 'I_m) (j : 'I_n), (k < size ps)%N -> j = nth 0%N ps k :> nat -> A i j = (i == k :> nat)%:R].
(* reduced row echelon form *)
Definition is_rref ps A : Prop :=
  pivots ps A /\ forall (i : 'I_m) (j : 'I_n),
    (i < size ps)%N && (j < nth 0 ps i)%N || (size ps <= i)%N -> A i j = 0.

(* loop invariant with r pivots found and the columns before lead examined *)
Definition inv (exact : Prop) ps lead A : Prop :=
  [/\ pivots ps A, all (fun p => p < lead)%N ps & exact ->
      forall (i : 'I_m) (j : 'I_n),
        (i < size ps)%N && (j < nth 0 ps i)%N || (size ps <= i)%N && (j < lead)%N -> A i j = 0].
End Spec.

Section Loop.
Variables (F : realFieldType) (K : fieldType) (nrm : K -> F) (m n : nat) (small : K -> bool).
Hypotheses (small0 : small 0).
Hypothesis nrm_is : is_norm nrm.
Implicit Types (A red : 'M[K]_(m, n)).
Let exact := (forall x, small x -> x = 0).

Lemma leadingP red (r : 'I_m) (l : 'I_n) : (r <= leading nrm red r l)%N /\
  forall i : 'I_m, (r <= i)%N -> nrm (red i l) <= nrm (red (leading nrm red r l) l).
Proof.
rewrite /leading; case: (@Order.TotalTheory.arg_maxP _ _ _ r (fun i : 'I_m => (r <= i)%N) (fun i => nrm (red i l))) => //.
Qed.

Lemma inv_skip ps lead red (r : 'I_m) (l : 'I_n) : l = lead :> nat -> r = size ps :> nat ->
  inv exact ps lead red -> small (red (leading nrm red r l) l) -> inv exact ps lead.+1 red.
Proof.
move=> El Er [H1 H2 H3] sm; split=> //; first by apply: sub_all H2 => p /ltnW; rewrite ltnS.
move=> ex i j /orP [h|/andP [h1]]; first by apply: H3 => //; rewrite h.
rewrite ltnS leq_eqVlt => /orP [/eqP h2|h2]; last by apply: H3 => //; rewrite h1 h2 orbT.
have -> : j = l by apply: val_inj; rewrite /= h2.
have [_ /(_ i)] := leadingP red r l; rewrite Er => /(_ h1).
rewrite (ex _ sm) (nrm0 nrm_is) => h0; apply: (nrm0P nrm_is); apply/eqP.
by rewrite eq_le h0 (nrm_ge0 nrm_is).
Qed.

Definition step red (r i : 'I_m) (l : 'I_n) : 'M[K]_(m, n) :=
  let red2 := rowmul r (1 / red i l) *m (pivot K i r *m red) in rowsub r (col l red2) *m red2.
Lemma stepE red (r i : 'I_m) (l : 'I_n) a b : step red r i l a b =
  if a == r then (red i l)^-1 * red i b
  else red (tperm i r a) b - red (tperm i r a) l * ((red i l)^-1 * red i b).
Proof.
rewrite /step; set red2 := rowmul _ _ *m _.
have E c d : red2 c d = (if c == r then (red i l)^-1 else 1) * red (tperm i r c) d.
  by rewrite /red2 rowmul_mul pivot_mul div1r.
rewrite rowsub_mul [col l red2 _ _]mxE !E eqxx tpermR; case: (a == r) => //.
by rewrite !mul1r.
Qed.

Lemma inv_step ps lead red (r i : 'I_m) (l : 'I_n) : l = lead :> nat -> r = size ps :> nat -> (r <= i)%N ->
  red i l != 0 -> inv exact ps lead red -> inv exact (rcons ps l) lead.+1 (step red r i l).
Proof.
move=> El Er ri lv0 [[H1 H2 H3 H4] H5 H6].
have tge (a : 'I_m) : (r <= a)%N -> (r <= tperm i r a)%N by case: tpermP.
have tlt (a : 'I_m) : (a < r)%N -> tperm i r a = a.
  by move=> la; case: tpermP => // E; move: la ri; rewrite E; lia.
have coll a : step red r i l a l = (a == r)%:R.
  by rewrite stepE mulVf // mulr1 subrr; case: ifP.
split.
- split.
  + rewrite sorted_pairwise; last exact: ltn_trans.
    rewrite pairwise_rcons -sorted_pairwise ?H1 ?andbT; last exact: ltn_trans.
    by rewrite El.
  + by rewrite all_rcons H2 ltn_ord.
  + by rewrite size_rcons -Er ltn_ord.
  + move=> k a j; rewrite size_rcons ltnS nth_rcons -Er leq_eqVlt => /orP [/eqP E|lk].
      rewrite E ltnn eqxx => /val_inj ->; rewrite coll.
      by rewrite -(inj_eq val_inj).
    rewrite lk => Ej; have lk' : (k < size ps)%N by rewrite -Er.
    have i0 : red i j = 0.
      by rewrite (H4 k i j) // gtn_eqF // (leq_trans lk ri).
    rewrite stepE i0 !mulr0 subr0.
    have [->|na] := eqVneq a r; first by rewrite gtn_eqF.
    case: tpermP => [->|E|_ _]; [|by rewrite E eqxx in na|exact: H4].
    by rewrite (H4 k r j) // !gtn_eqF // (leq_trans lk ri).
- by rewrite all_rcons El leqnn /=; apply: sub_all H5 => p /ltnW; rewrite ltnS.
- move=> ex a j; rewrite size_rcons nth_rcons -Er.
  case: (ltngtP a r) => [la|la|Ea].
    rewrite ltnS (ltnW la) /= orbF => lj.
    have ljl : (j < lead)%N.
      apply: ltn_trans lj _; apply: (allP H5); apply: mem_nth; by rewrite -Er.
    rewrite stepE tlt //; have -> : (a == r) = false by apply/eqP => E; rewrite E ltnn in la.
    rewrite (H6 ex a j) ?sub0r; last by rewrite -Er la lj.
    by rewrite (H6 ex i j) ?mulr0 ?oppr0 // -Er ri ljl orbT.
  + rewrite ltnS leqNgt la /= ltnS leq_eqVlt => /orP [/eqP E|lj].
      have -> : j = l by apply: val_inj; rewrite /= E.
      rewrite coll; case: eqP => // E'; by rewrite E' ltnn in la.
    rewrite stepE; have -> : (a == r) = false by apply/eqP => E; rewrite E ltnn in la.
    rewrite (H6 ex (tperm i r a) j) ?sub0r; last by rewrite -Er tge ?(ltnW la) // lj orbT.
    by rewrite (H6 ex i j) ?mulr0 ?oppr0 // -Er ri lj orbT.
  + have -> : a = r by apply: val_inj.
    rewrite ltnSn orbF /= El => lj; rewrite stepE eqxx.
    by rewrite (H6 ex i j) ?mulr0 // -Er ri lj orbT.
Qed.

Lemma find_leadP red (r : 'I_m) cols lead ps :
  map val cols = iota lead (n - lead) -> (lead <= n)%N -> r = size ps :> nat -> inv exact ps lead red ->
  if find_lead nrm small red r cols is Some (l, i, cols') then
    [/\ inv exact ps l red, map val cols' = iota l.+1 (n - l.+1), (r <= i)%N, ~~ small (red i l) &
        i = leading nrm red r l]
  else inv exact ps n red.
Proof.
move=> E ln Er; elim: cols lead E ln => [|l cols IH] lead /= E ln I.
  have : (n - lead = 0)%N by case: (n - lead)%N E.
  move/eqP; rewrite subn_eq0 => h.
  have e : lead = n by apply/eqP; rewrite eqn_leq ln.
  by rewrite e in I.
case Enl: (n - lead)%N E => [//|k] /= [El Ec].
have h : (n - lead.+1)%N = k by lia.
have ln' : (lead < n)%N by lia.
case: ifP => [sm|/negbT nsm].
  apply: (IH lead.+1) => //; first by rewrite h.
  by apply: inv_skip I sm.
split=> //; rewrite ?El //; first by rewrite h.
by case: (leadingP red r l).
Qed.

Lemma loopP rs cols red S ps lead M :
  map val rs = iota (size ps) (m - size ps) -> map val cols = iota lead (n - lead) -> (lead <= n)%N ->
  inv exact ps lead red -> S \in unitmx -> red = S *m M ->
  exists red' S' ps', [/\ rref_loop nrm small rs cols red S = Ok (red', S'), S' \in unitmx, red' = S' *m M,
    pivots ps' red' & exact -> is_rref ps' red'].
Proof.
elim: rs cols red S ps lead => [|r rs IH] cols red S ps lead /= Er Ec ln I US RS.
  exists red, S, ps; split=> //; first by case: I.
  case: I => [[H1 H2 H3 H4] _ H6] ex; split=> // i j /orP [h|h]; first by apply: H6 => //; rewrite h.
  have : (m - size ps)%N = 0%N by case: (m - size ps)%N Er.
  by move: (ltn_ord i); lia.
case Em: (m - size ps)%N Er => [//|k] /= [Er Ers].
have := find_leadP Ec ln Er I; case: (find_lead _ _ _ _ _) => [[[l i] cols']|I'].
  case=> I' Ec' ri nsm _.
  have lv0 : red i l != 0 by apply: contra nsm => /eqP ->.
  rewrite (negPf lv0).
  have Ers' : map val rs = iota (size (rcons ps l)) (m - size (rcons ps l)).
    by rewrite size_rcons; have -> : (m - (size ps).+1)%N = k by lia.
  apply: (IH _ _ _ (rcons ps l) l.+1) => //.
  - exact: inv_step I'.
  - by rewrite !unitmx_mul rowsub_unit rowmul_unit ?pivot_unit // div1r invr_eq0.
  - by rewrite RS !mulmxA.
exists red, S, ps; split=> //; first by case: I'.
case: I' => [[H1 H2 H3 H4] _ H6] ex; split=> // a j /orP [h|h]; first by apply: H6 => //; rewrite h.
by apply: H6 => //; rewrite h ltn_ord orbT.
Qed.
End Loop.

(* ---- uniqueness of the reduced row echelon form ---- *)
Section Unique.
Variables (K : fieldType) (m n : nat).
Implicit Types (A B : 'M[K]_(m, n)).

(* a vector of the row span is determined by its entries in the pivot columns *)
Lemma rref_expand ps A (v : 'rV[K]_n) : is_rref ps A -> (v <= A)%MS ->
  exists c : 'I_m -> K, (forall j, v 0 j = \sum_(k < m | (k < size ps)%N) c k * A k j) /\
    forall (k : 'I_m) (j : 'I_n), (k < size ps)%N -> j = nth 0%N ps k :> nat -> v 0 j = c k.
Proof.
move=> [[H1 H2 H3 H4] H5] /submxP [D ->]; exists (fun k => D 0 k).
have E j : (D *m A) 0 j = \sum_(k < m | (k < size ps)%N) D 0 k * A k j.
  rewrite mxE [RHS]big_mkcond; apply: eq_bigr => k _; case: ltnP => // h.
  by rewrite H5 ?mulr0 // h orbT.
split=> // k j lk Ej; rewrite E (bigD1 k) //= (H4 k k j) // eqxx mulr1 big1 ?addr0 // => i /andP [_ ni].
by rewrite (H4 k i j) // -[(_ == _ :> nat)]/(i == k) (negPf ni) mulr0.
Qed.

Lemma rref_pivots_sub ps qs A B : is_rref ps A -> is_rref qs B -> (B <= A)%MS -> {subset qs <= ps}.
Proof.
move=> rA rB sBA q /(nthP 0%N) [i li Eq].
have [[_ a2 _ a4] a5] := rA; have [[b1 b2 b3 b4] b5] := rB.
have lqn : (q < n)%N by apply: (allP b2); rewrite -Eq mem_nth.
have im : (i < m)%N by apply: leq_trans li b3.
set j := Ordinal lqn; set k := Ordinal im.
have [c [Ec pc]] := rref_expand rA (submx_trans (row_sub k B) sBA).
apply/negPn/negP => nq.
have : row k B 0 j = 1 by rewrite mxE (b4 i k j) //= eqxx.
rewrite Ec big1 => [/esym/eqP|p lp]; first by rewrite oner_eq0.
have lpn : (nth 0 ps p < n)%N by apply: (allP a2); rewrite mem_nth.
case: (ltngtP (nth 0%N ps p) q) => [lt|gt|E].
- rewrite -(pc p (Ordinal lpn)) // mxE b5 ?mul0r //= li Eq /= lt //.
- by rewrite (a5 p j) ?mulr0 //= lp gt.
- by case/negP: nq; rewrite -E mem_nth.
Qed.

Theorem C29_rref_unique ps qs A B : is_rref ps A -> is_rref qs B -> (A :=: B)%MS -> ps = qs /\ A = B.
Proof.
move=> rA rB E; have [sAB sBA] : (A <= B)%MS /\ (B <= A)%MS by split; rewrite ?E ?submx_refl // -E submx_refl.
have Eps : ps = qs.
  apply: (irr_sorted_eq ltn_trans ltnn); rewrite ?(rA.1) ?(rB.1).
  - by case: rA => [[]].
  - by case: rB => [[]].
  - move=> x; apply/idP/idP; first exact: rref_pivots_sub rB rA sAB x.
    exact: rref_pivots_sub rA rB sBA x.
split=> //; subst qs; have [[_ a2 _ a4] a5] := rA; have [[b1 b2 b3 b4] b5] := rB.
apply/matrixP => i j; case: (ltnP i (size ps)) => li; last by rewrite a5 ?b5 // li orbT.
have [c [Ec pc]] := rref_expand rA (submx_trans (row_sub i B) sBA).
have := Ec j; rewrite mxE => ->; rewrite (bigD1 i) //= [X in _ + X]big1 ?addr0.
  have lpn : (nth 0 ps i < n)%N by apply: (allP a2); rewrite mem_nth.
  by rewrite -(pc i (Ordinal lpn)) // mxE (b4 i i) // eqxx mul1r.
move=> k /andP [lk nk]; have lpn : (nth 0 ps k < n)%N by apply: (allP a2); rewrite mem_nth.
by rewrite -(pc k (Ordinal lpn)) // mxE (b4 k i) // -[(_ == _ :> nat)]/(i == k) eq_sym (negPf nk) mul0r.
Qed.
End Unique.

(* ---- the tolerance matters only through the values that are tested ---- *)
Section Tests.
Variables (F : realFieldType) (K : fieldType) (nrm : K -> F) (m n : nat).
Implicit Types (red : 'M[K]_(m, n)).
Variable (small : K -> bool).
Fixpoint lead_tests red (r : 'I_m) (cols : seq 'I_n) : seq K :=
  if cols is l :: cols' then
    let x := red (leading nrm red r l) l in x :: (if small x then lead_tests red r cols' else [::])
  else [::].
Fixpoint tests (rs : seq 'I_m) (cols : seq 'I_n) red : seq K :=
  if rs is r :: rs' then
    lead_tests red r cols ++
    (if find_lead nrm small red r cols is Some (l, i, cols') then tests rs' cols' (step red r i l) else [::])
  else [::].
Variable (small2 : K -> bool).
Lemma find_lead_tests red r cols : (forall x, x \in lead_tests red r cols -> small x = small2 x) ->
  find_lead nrm small red r cols = find_lead nrm small2 red r cols.
Proof.
elim: cols => //= l cols IH H; rewrite -(H (red (leading nrm red r l) l)) ?mem_head //.
case: ifP => // sm; apply: IH => x mx; apply: H.
by rewrite sm inE mx orbT.
Qed.
Lemma loop_tests rs cols red S : (forall x, x \in tests rs cols red -> small x = small2 x) ->
  rref_loop nrm small rs cols red S = rref_loop nrm small2 rs cols red S.
Proof.
elim: rs cols red S => //= r rs IH cols red S H.
rewrite -find_lead_tests; last by move=> x mx; apply: H; rewrite mem_cat mx.
case E: (find_lead _ _ _ _ _) => [[[l i] cols']|//].
case: ifP => // _; apply: IH => x mx; apply: H.
by rewrite E mem_cat mx orbT.
Qed.
End Tests.

(* ---- C29 ---- *)
Section Main.
Variables (F : realFieldType) (K : fieldType) (nrm : K -> F) (m n : nat) (np_rtol np_atol : F).
Hypothesis nrm_is : is_norm nrm.
Implicit Types (A : 'M[K]_(m, n)).

Lemma val_enum_iota k : map val (enum 'I_k) = iota 0 (k - 0).
Proof. by rewrite val_enum_ord subn0. Qed.
Lemma inv0 (ex : Prop) A : inv ex [::] 0 A.
Proof. by split. Qed.

(* every matrix that is not close to zero and every positive tolerance *)
Theorem C29_rref A rtol : 0 < rtol -> ~~ np_allclose nrm np_rtol np_atol A 0 -> 0 <= np_atol ->
  exists red S ps,
    [/\ rref nrm np_rtol np_atol A rtol true = Ok (RedS red S),
        rref nrm np_rtol np_atol A rtol false = Ok (RedOnly red),
        S \in unitmx, red = S *m A & pivots ps red].
Proof.
move=> r0 nz at0; rewrite /rref (negPf nz).
have tol0 : 0 < amax nrm A * rtol.
  apply: mulr_gt0 => //; rewrite lt_neqAle eq_sym amax_ge0 andbT.
  apply: contra nz => /eqP E; apply/forallP => i; apply/forallP => j.
  rewrite /np_isclose mxE subr0 (nrm0 nrm_is) mulr0 addr0; apply: le_trans at0.
  by rewrite -E; apply: amax_ub.
have sm0 : nrm 0 < amax nrm A * rtol by rewrite (nrm0 nrm_is).
have [red [S [ps [-> US E P _]]]] := @loopP F K nrm m n (fun x => nrm x < amax nrm A * rtol) sm0 nrm_is
  (enum 'I_m) (enum 'I_n) A 1%:M [::] 0 A (val_enum_iota m) (val_enum_iota n) (leq0n n) (inv0 _ A) (unitmx1 _ _) (esym (mul1mx A)).
by exists red, S, ps.
Qed.

(* with exact zero tests the result is the reduced row echelon form *)
Theorem C29_exact A : exists red S ps,
  [/\ rref_loop nrm (fun x => x == 0) (enum 'I_m) (enum 'I_n) A 1%:M = Ok (red, S),
      S \in unitmx, red = S *m A & is_rref ps red].
Proof.
have [red [S [ps [-> US E P R]]]] := @loopP F K nrm m n (fun x => x == 0) (eqxx _) nrm_is
  (enum 'I_m) (enum 'I_n) A 1%:M [::] 0 A (val_enum_iota m) (val_enum_iota n) (leq0n n) (inv0 _ A) (unitmx1 _ _) (esym (mul1mx A)).
by exists red, S, ps; split=> //; apply: R => x /eqP.
Qed.

(* a positive tolerance gives the same result as the exact test, if every value
   tested in the exact run is zero or at least the tolerance *)
Theorem C29_tolerance A rtol :
  (forall x, x \in tests nrm (fun x => x == 0) (enum 'I_m) (enum 'I_n) A -> nrm x < amax nrm A * rtol <-> x = 0) ->
  ~~ np_allclose nrm np_rtol np_atol A 0 ->
  exists red S ps, [/\ rref nrm np_rtol np_atol A rtol true = Ok (RedS red S),
      S \in unitmx, red = S *m A & is_rref ps red].
Proof.
move=> H nz; have [red [S [ps [E US ES R]]]] := C29_exact A.
exists red, S, ps; split=> //; rewrite /rref (negPf nz) -(@loop_tests _ _ _ _ _ (fun x => x == 0)) ?E //.
by move=> x /H h; apply/eqP/idP => [/h //|/h].
Qed.

(* row spans are preserved, and equal row spans give equal results *)
Theorem C29_row_span A red S : S \in unitmx -> red = S *m A -> (red :=: A)%MS.
Proof. by move=> US ->; apply: eqmxMfull; rewrite row_full_unit. Qed.

Theorem C29_canonical A B : (A :=: B)%MS ->
  exists red S S', [/\ rref_loop nrm (fun x => x == 0) (enum 'I_m) (enum 'I_n) A 1%:M = Ok (red, S) &
                       rref_loop nrm (fun x => x == 0) (enum 'I_m) (enum 'I_n) B 1%:M = Ok (red, S')].
Proof.
move=> EAB; have [red [S [ps [E US ES R]]]] := C29_exact A.
have [red' [S' [ps' [E' US' ES' R']]]] := C29_exact B.
exists red, S, S'; split=> //; rewrite E'; congr (Ok (_, _)).
have e1 := C29_row_span US ES; have e2 := C29_row_span US' ES'.
have e3 : (red :=: red')%MS by apply: eqmx_trans e1 _; apply: eqmx_trans EAB _; apply: eqmx_sym.
by have [_ ->] := C29_rref_unique R R' e3.
Qed.
End Main.

(* rtol = 0: the test |x| < 0 never succeeds, so that a zero is chosen as pivot *)
Theorem C29_zero_tolerance_refuted (F : realFieldType) (np_rtol np_atol : F) : np_atol < 1 ->
  exists A : 'M[F]_(1, 2), rref (fun x => `|x|) np_rtol np_atol A 0 true = Err ZeroDivisionError.
Proof.
move=> a1; exists (delta_mx 0 1); rewrite /rref; case: ifP => [/forallP /(_ 0) /forallP /(_ 1)|_].
  by rewrite /np_isclose !mxE !eqxx subr0 normr0 normr1 mulr0 addr0 leNgt a1.
have [-> E2] : enum 'I_1 = [:: ord0] /\ enum 'I_2 = [:: ord0; ord_max].
  by split; apply: (inj_map val_inj); rewrite val_enum_ord.
rewrite E2 mulr0 /= normr_lt0 (ord1 (leading _ _ _ _)) mxE /=.
by rewrite eqxx.
Qed.

(* C30: no S for a zero matrix *)
Theorem C30_zero_matrix_refuted (F : realFieldType) (K : fieldType) (nrm : K -> F) m n (np_rtol np_atol rtol : F) :
  is_norm nrm -> 0 <= np_atol ->
  rref nrm np_rtol np_atol (0 : 'M[K]_(m, n)) rtol true = Ok (RedOnly 0).
Proof.
move=> N a0; rewrite /rref; case: ifP => // /negbT /negP []; apply/forallP => i; apply/forallP => j.
by rewrite /np_isclose mxE subr0 (nrm0 N) mulr0 addr0.
Qed.

(* C30: the documented relation m = S r is wrong, it is r = S m (C29_rref) *)
Theorem C30_documented_relation_refuted (F : realFieldType) (K : fieldType) (nrm : K -> F)
  (np_rtol np_atol rtol : F) (x : K) : is_norm nrm -> 0 <= np_atol < nrm x -> x * x != 1 -> 0 < rtol <= 1 ->
  exists red S, rref nrm np_rtol np_atol (x%:M : 'M[K]_1) rtol true = Ok (RedS red S) /\
    x%:M <> S *m red.
Proof.
move=> N /andP [a0 ax] xx /andP [r0 r1].
have nE (a b : 'I_1) : (x%:M : 'M_1) a b = x by rewrite !ord1 mxE eqxx mulr1n.
have n0 : x != 0 by apply/eqP => E; move: (le_lt_trans a0 ax); rewrite E (nrm0 N) ltxx.
rewrite /rref; case: ifP => [/forallP /(_ 0) /forallP /(_ 0)|_].
  by rewrite /np_isclose nE mxE subr0 (nrm0 N) mulr0 addr0 leNgt ax.
have Ea : amax nrm (x%:M : 'M_1) = nrm x.
  case: (amax_attained nrm (x%:M : 'M_1)) => [E|[i [j ->]]]; last by rewrite nE.
  have := amax_ub nrm (x%:M : 'M_1) 0 0; rewrite nE E => h.
  by apply/eqP; rewrite eq_le h (nrm_ge0 N).
have E1 : enum 'I_1 = [:: ord0] by apply: (inj_map val_inj); rewrite val_enum_ord.
rewrite Ea E1 /= !nE ltNge ler_pimulr ?(nrm_ge0 N) //= !nE (negPf n0) (ord1 (leading _ _ _ _)).
set T1 := pivot K _ _; set T2 := rowmul _ _; set T3 := rowsub _ _.
exists (T3 *m (T2 *m (T1 *m x%:M))), (T3 *m (T2 *m (T1 *m 1%:M))); split=> //.
have e1 : (T3 *m (T2 *m (T1 *m x%:M))) 0 0 = 1.
  have := stepE (x%:M : 'M[K]_1) 0 0 0 0 0; rewrite eqxx !nE mulVf // => <-.
  by rewrite /step nE.
have e2 : (T3 *m (T2 *m (T1 *m 1%:M))) 0 0 = x^-1.
  have e0 : T3 *m (T2 *m (T1 *m x%:M)) = (T3 *m (T2 *m (T1 *m 1%:M))) *m x%:M by rewrite mulmx1 !mulmxA.
  by apply: (mulIf n0); rewrite mulVf // -[RHS]e1 e0 [RHS]mxE big_ord1 nE.
move=> E; have := congr1 (fun M : 'M[K]_1 => M 0 0) E; rewrite nE mxE big_ord1 e1 e2 mulr1 => E'.
by move: xx; rewrite {1}E' mulVf // eqxx.
Qed.

(* The reduced form of a matrix with dependent rows. *)
Example C29_example (F : realFieldType) :
  is_rref [:: 0%N] (\matrix_(i < 2, j < 2) (if i == 0 then 1 else 0) : 'M[F]_2).
Proof.
split=> [|i j].
  split=> // k i j; rewrite ltnS leqn0 => /eqP -> Ej; rewrite mxE.
  by rewrite -[(i == 0%N :> nat)]/(i == 0); case: eqP.
by rewrite mxE; case: i => [[|[|i]] li] //=; rewrite ltn0.
Qed.

Print Assumptions C29_rref.
Print Assumptions C29_exact.
Print Assumptions C29_tolerance.
Print Assumptions C29_canonical.
Print Assumptions C29_zero_tolerance_refuted.
Print Assumptions C30_zero_matrix_refuted.
Print Assumptions C30_documented_relation_refuted.
