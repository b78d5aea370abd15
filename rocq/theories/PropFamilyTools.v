(* C38-C41: remove_duplicates, make_basis_pretty and subtract_family. *)
From mathcomp Require Import all_ssreflect all_algebra.
From mathcomp Require Import complex.
From Verif Require Import Prelude ModelCore ModelProofs LinSpan NullSpec Complement Family FamilyProofs PropFamily FamilyTools.

Set Implicit Arguments.
Unset Strict Implicit.
Unset Printing Implicit Defensive.
Import Order.TTheory GRing.Theory Num.Theory.
Local Open Scope ring_scope.
Local Open Scope complex_scope.

Section Tools.
Variables (F : rcfType) (n1 n2 : nat) (K : eqType) (kone : K) (Mom : eqType) (mom : Mom).
Local Notation C := F[i].
Local Notation V := [lmodType C of 'M[C]_(n1, n2)].
Local Notation model := (model K Mom V).
Local Notation coef m k := (dget kone (mdata m) (Sym k)).
Local Notation fcoef := (fcoef kone).
Local Notation is_comb := (is_comb kone).
Local Notation fspan := (fspan kone).
Local Notation findep := (findep kone).
Local Notation good := (good kone mom).
Local Notation id_ := [rmorphism of idfun].
Implicit Types (family fam : seq model) (m : model) (c : nat -> F).

(* families made of combinations *)
Lemma combine_all_ok fam (vecs : seq 'rV[F]_(size fam)) : (0 < size fam)%N ->
  (forall m, List.In m fam -> good m) -> exists res, combine_all kone vecs = Ok res.
Proof.
by move=> n0 gf; apply: mapM_total => v _; have [m [E _ _]] := combine_row v n0 gf; exists m.
Qed.
Lemma combine_all_props fam (vecs : seq 'rV[F]_(size fam)) res : (0 < size fam)%N ->
  (forall m, List.In m fam -> good m) -> combine_all kone vecs = Ok res ->
  [/\ size res = size vecs, forall m, List.In m res -> good m,
      forall c k, fcoef res c k = fcoef fam (rowf (comb id_ vecs c)) k &
      forall m, fspan res m <-> exists2 v, span id_ vecs v & is_comb fam (rowf v) m].
Proof.
move=> n0 gf e; have [sz H] := mapM_ok e.
have P i m0 v0 : (i < size vecs)%N -> is_comb fam (rowf (nth v0 vecs i)) (nth m0 res i).
  move=> li; have := H v0 m0 i li; have [m [-> _ cmb]] := combine_row (nth v0 vecs i) n0 gf.
  by case=> <-.
have E c k : fcoef res c k = fcoef fam (rowf (comb id_ vecs c)) k by apply: fcoef_combine P.
split=> //.
  move=> m h; have [v _ ev] := mapM_In e h.
  by have [m' [em gm _]] := combine_row v n0 gf; move: ev; rewrite em => -[<-].
move=> m; split=> [[c Ec]|[v [c ->] Ec]]; last by exists c => k; rewrite Ec E.
by exists (comb id_ vecs c); [exists c|move=> k; rewrite Ec E].
Qed.

Lemma fcoefD fam N (v w : 'rV[F]_N) k : size fam = N -> fcoef fam (rowf (v + w)) k = fcoef fam (rowf v) k + fcoef fam (rowf w) k.
Proof.
move=> sz; subst N; rewrite -big_split; apply: eq_bigr => j _.
by rewrite !rowfE mxE rmorphD scalerDl.
Qed.
Lemma fcoef_vanish fam (v : 'rV[F]_(size fam)) : findep fam -> (forall k, fcoef fam (rowf v) k = 0) -> v = 0.
Proof. by move=> fi H; apply/rowP => j; rewrite mxE -rowfE; apply: fi. Qed.

Section Dups.
Variable cs : forall N, seq 'rV[F]_N -> seq 'rV[F]_N.
Hypothesis CS : exact_complement cs.

(* C38 *)
Theorem C38_remove_duplicates family : (forall m, List.In m family -> good m) ->
  exists res, [/\ remove_duplicates kone cs family = Ok res, findep res,
    forall m, List.In m res -> good m & forall m, fspan res m <-> fspan family m].
Proof.
move=> gf; rewrite /remove_duplicates; case: (posnP (size family)) => [/size0nil ->|n0].
  by exists [::]; split.
have -> : nilp family = false by apply/negbTE; rewrite /nilp -lt0n.
rewrite /family_to_vectors -/(family_to_vectors kone family (Some (family_keys kone family))).
have cv := covered_keys kone family.
rewrite f2v_total //=; last by left.
set T := transpose _ _; have [O S] := CS T.
have [res E] := combine_all_ok (cs T) n0 gf; exists res.
have [sz gr fr sr] := combine_all_props n0 gf E.
have van (v : 'rV[F]_(size family)) : (forall r, List.In r T -> dot r v = 0) <-> forall k, fcoef family (rowf v) k = 0.
  exact: (transpose_sem v erefl n0 cv).
split=> // [c c0 j lj|m].
  have /van H : forall k, fcoef family (rowf (comb id_ (cs T) c)) k = 0 by move=> k; rewrite -fr.
  have := ortho_span0 H _; rewrite -S => /(_ (ex_intro _ c erefl)) z.
  by apply: (orthonormal_indep O z); rewrite -sz.
rewrite sr; split=> [[v _ Ev]|[c Ec]]; first by exists (rowf v).
have [w [Sw Hw]] := decompose (\row_(j < size family) c j) O S.
exists w => // k; rewrite Ec fcoef_row -{1}(subrK w (\row_(j < size family) c j)) fcoefD //.
by move/van: Hw => ->; rewrite add0r.
Qed.
End Dups.

(* ---- encoding as real vectors ---- *)
Section Enc.
Variable keys : seq K.
Local Notation slots := (slots n1 n2 keys).
Definition enc (A : K -> 'M[C]_(n1, n2)) : 'rV[F]_(size slots) :=
  \row_t [seq entry A x | x <- slots]`_t.
Lemma enc_comb fam c : comb id_ [seq enc (fun k => coef m k) | m <- fam] c = enc (fcoef fam c).
Proof.
apply/rowP => t; rewrite /comb summxE size_map !mxE.
case: (posnP (size fam)) => [e|n0].
  rewrite big1 => [|[j lj]]; last by exfalso; move: lj; rewrite e.
  have := size0nil e => ->; case: (slots) t => [[]//|x0 s] t.
  rewrite (nth_map x0) // /entry fcoef_nil mxE; by case: (nth _ _ _).1.1.2.
have [m1 _] : exists m1 : model, true by case: (fam) n0 => // m1; exists m1.
have [x0 _] : exists x0 : slot n1 n2 K, true by case: (slots) t => [[]//|x0 s] t; exists x0.
rewrite (nth_map x0) // entry_comb; apply: eq_bigr => j _.
by rewrite mxE !(nth_map m1) // mxE (nth_map x0).
Qed.
Lemma enc0P A : (forall k, k \notin keys -> A k = 0) -> enc A = 0 <-> forall k, A k = 0.
Proof.
move=> H; rewrite -(entry0P H); split=> [E x xs|E].
  have lt : (index x slots < size slots)%N by rewrite index_mem.
  by move/rowP: E => /(_ (Ordinal lt)); rewrite !mxE /= (nth_map x) // nth_index.
apply/rowP => t; rewrite !mxE.
have [x0 _] : exists x0 : slot n1 n2 K, true by case: (slots) t => [[]//|x0 s] t; exists x0.
by rewrite (nth_map x0) // E // mem_nth.
Qed.
Lemma encB A B : enc (fun k => A k - B k) = enc A - enc B.
Proof.
apply/rowP => t; rewrite !mxE.
have [x0 _] : exists x0 : slot n1 n2 K, true by case: (slots) t => [[]//|x0 s] t; exists x0.
rewrite !(nth_map x0) // /entry !mxE; case: (A _ _ _) => a a'; case: (B _ _ _) => b b'.
by case: (_.1.1.2).
Qed.
Lemma enc_inj A B : (forall k, k \notin keys -> A k = 0) -> (forall k, k \notin keys -> B k = 0) ->
  enc A = enc B <-> forall k, A k = B k.
Proof.
move=> HA HB; have H : forall k, k \notin keys -> A k - B k = 0 by move=> k nk; rewrite HA ?HB ?subr0.
have := enc0P H; rewrite encB => E.
split=> [e k|e]; first by apply/eqP; rewrite -subr_eq0; apply/eqP; apply E; rewrite e subrr.
by apply/eqP; rewrite -subr_eq0; apply/eqP; apply/E => k; rewrite e subrr.
Qed.
Lemma as_rowsE fam : as_rows (size slots) [seq member_vector kone keys m | m <- fam] = [seq enc (fun k => coef m k) | m <- fam].
Proof. by rewrite /as_rows -map_comp; apply: eq_map => m /=; rewrite /enc -member_vectorE. Qed.
End Enc.

Lemma columns_dot N L (P : seq 'rV[F]_L) (v : 'rV[F]_N) : size P = N ->
  (forall r, List.In r (columns N P) -> dot r v = 0) <-> comb id_ P (rowf v) = 0.
Proof.
move=> sz; subst N.
have E t : dot (\row_(j < size P) P`_j 0 t) v = comb id_ P (rowf v) 0 t.
  by rewrite /comb summxE; apply: eq_bigr => j _; rewrite !mxE rowfE mulrC.
split=> [H|H r /In_map_iff [t _ ->]]; last by rewrite E H mxE.
by apply/rowP => t; rewrite mxE -E; apply: H; apply/In_map_iff; exists t => //; rewrite In_mem mem_enum.
Qed.

Section Subtract.
Variable cs : forall N, seq 'rV[F]_N -> seq 'rV[F]_N.
Hypothesis CS : exact_complement cs.

Definition rows_of (keys : seq K) fam : seq 'rV[F]_(size (slots n1 n2 keys)) :=
  [seq enc keys (fun k => coef m k) | m <- fam].
Definition sub_proj (keys : seq K) family1 family2 :=
  [seq b - project (cs (rows_of keys family2)) b | b <- rows_of keys family1].

Lemma subtract_unfold family1 family2 : (0 < size family1)%N -> (0 < size family2)%N ->
  exists keys, [/\ covered kone keys family1, covered kone keys family2 &
    subtract_family kone cs family1 family2 =
      if ~~ all (fun p => project (cs (rows_of keys family1)) p == p) (sub_proj keys family1 family2)
      then Err ValueError
      else combine_all kone (cs (columns (size family1) (sub_proj keys family1 family2)))].
Proof.
move=> s1 s2; exists (undup (family_keys kone family1 ++ family_keys kone family2)).
set keys := undup _.
have c1 : covered kone keys family1.
  have /allIn H := covered_keys kone family1; apply/allIn => m /H /allP h; apply/allP => k /h kk.
  by rewrite /keys mem_undup mem_cat kk.
have c2 : covered kone keys family2.
  have /allIn H := covered_keys kone family2; apply/allIn => m /H /allP h; apply/allP => k /h kk.
  by rewrite /keys mem_undup mem_cat kk orbT.
split=> //; rewrite /subtract_family.
have -> : nilp family1 || nilp family2 = false by apply/negbTE; rewrite /nilp negb_or -!lt0n s1.
rewrite -/keys !f2v_total //=; try by left.
have -> : size (head [::] [seq member_vector kone keys m | m <- family1]) = size (slots n1 n2 keys).
  by case: (family1) s1 => //= m l _; rewrite member_vectorE size_map.
by rewrite !as_rowsE.
Qed.

Lemma size_proj keys family1 family2 : size (sub_proj keys family1 family2) = size family1.
Proof. by rewrite !size_map. Qed.
Lemma proj_comb keys family1 family2 c (b := comb id_ (rows_of keys family1) c) :
  comb id_ (sub_proj keys family1 family2) c = b - project (cs (rows_of keys family2)) b.
Proof.
rewrite /sub_proj (comb_map (e := id_) (f := fun b => b - project (cs (rows_of keys family2)) b)) //.
- by rewrite /project big1 ?subr0 // => u _; rewrite dot0l scale0r.
- move=> u v; rewrite addrACA; congr (_ + _); rewrite -opprD; congr (- _); rewrite /project -big_split.
  by apply: eq_bigr => x _; rewrite dotDl scalerDl.
- move=> a v; rewrite scalerBr; congr (_ - _); rewrite /project scaler_sumr.
  by apply: eq_bigr => x _; rewrite dotZl scalerA.
Qed.

Lemma span_rows keys fam A : covered kone keys fam -> (forall k, k \notin keys -> A k = 0) ->
  span id_ (rows_of keys fam) (enc keys A) <-> exists d, forall k, A k = fcoef fam d k.
Proof.
move=> cv H; split=> -[d Ed]; exists d; move: Ed; rewrite /rows_of enc_comb enc_inj //;
  by move=> k; apply: fcoef_notin.
Qed.

Lemma subtract_null keys family1 family2 (v : 'rV[F]_(size family1)) :
  covered kone keys family1 -> covered kone keys family2 ->
  (forall r, List.In r (columns (size family1) (sub_proj keys family1 family2)) -> dot r v = 0) <->
  exists d, forall k, fcoef family1 (rowf v) k = fcoef family2 d k.
Proof.
move=> c1 c2; have [O2 S2] := CS (rows_of keys family2).
rewrite columns_dot ?size_proj // proj_comb project0 // S2 /rows_of enc_comb span_rows //.
by move=> k; apply: fcoef_notin.
Qed.

(* C40 *)
Theorem C40_subtract_family family1 family2 res :
  (0 < size family1)%N -> (0 < size family2)%N ->
  (forall m, List.In m family1 -> good m) -> (forall m, List.In m family2 -> good m) ->
  subtract_family kone cs family1 family2 = Ok res ->
  [/\ forall m, fspan res m -> fspan family1 m,
      forall m, fspan res m -> fspan family2 m -> forall k, coef m k = 0,
      forall m, fspan family1 m -> exists c d, forall k, coef m k = fcoef res c k + fcoef family2 d k &
      findep res].
Proof.
move=> s1 s2 g1 g2; have [keys [c1 c2 ->]] := subtract_unfold s1 s2; case: ifP => // _.
set T := columns _ _ => E.
have van v : (forall r, List.In r T -> dot r v = 0) <-> exists d, forall k, fcoef family1 (rowf v) k = fcoef family2 d k.
  exact: subtract_null.
have [O S] := CS T; have [sz gr fr sr] := combine_all_props s1 g1 E.
split=> [m /sr [v _ Ev]|m /sr [v Sv Ev] [d Ed]|m [c Ec]|c c0 j lj].
- by exists (rowf v).
- have v0 : v = 0.
    apply: (@ortho_span0 _ _ T); last exact/S.
    by apply/van; exists d => k; rewrite -Ev.
  move=> k; rewrite Ev v0; apply: big1 => j _.
  by rewrite rowfE mxE scale0r.
- have [w [[c' Ew] Hw]] := decompose (\row_(j < size family1) c j) O S.
  have [d Ed] := (van _).1 Hw; exists c', d => k.
  rewrite Ec fcoef_row -{1}(subrK w (\row_(j < size family1) c j)) fcoefD // Ed addrC; congr (_ + _).
  by rewrite fr Ew.
- have z : comb id_ (cs T) c = 0.
    apply: (@ortho_span0 _ _ T); last by apply/S; exists c.
    apply/van; exists (fun=> 0) => k; rewrite -fr c0 fcoef0 //.
  by apply: (orthonormal_indep O z); rewrite -sz.
Qed.

(* the real inner product of two Models *)
Definition inner (keys : seq K) (A B : K -> 'M[C]_(n1, n2)) : F :=
  \sum_(k <- keys) \sum_i \sum_j complex.Re ((A k i j)^* * B k i j).
Lemma inner_enc keys A B : inner keys A B = dot (enc keys A) (enc keys B).
Proof.
transitivity (\sum_(x <- slots n1 n2 keys) entry A x * entry B x); last first.
  rewrite /dot /enc; case: (posnP (size (slots n1 n2 keys))) => [e|n0].
    rewrite [RHS]big1 => [|[t lt]]; last by exfalso; move: lt; rewrite e.
    by have := size0nil e => ->; rewrite big_nil.
  have [x0 _] : exists x0 : slot n1 n2 K, true by case: (slots n1 n2 keys) n0 => // x0 l; exists x0.
  rewrite (big_nth x0) big_mkord; apply: eq_bigr => t _.
  by rewrite !mxE !(nth_map x0).
rewrite /inner /slots big_flatten /= big_map; apply: eq_bigr => k _.
rewrite big_cat /= !big_allpairs_dep /= -!big_enum -big_split; apply: eq_bigr => i _.
rewrite -!big_enum -big_split; apply: eq_bigr => j _; rewrite /entry /=.
by case: (A k i j) (B k i j) => a a' [b b'] /=; rewrite mulNr opprK.
Qed.

(* C40: accepted whenever every member of family2 is in the span of family1 or
   orthogonal to family1, as documented *)
Theorem C40_accepts family1 family2 : (0 < size family1)%N -> (0 < size family2)%N ->
  (forall m, List.In m family1 -> good m) -> (forall m, List.In m family2 -> good m) ->
  (forall m2, List.In m2 family2 -> fspan family1 m2 \/
     forall keys m1, List.In m1 family1 -> inner keys (fun k => coef m1 k) (fun k => coef m2 k) = 0) ->
  exists res, subtract_family kone cs family1 family2 = Ok res.
Proof.
move=> s1 s2 g1 g2 H; have [keys [c1 c2 ->]] := subtract_unfold s1 s2.
suff -> : all (fun p => project (cs (rows_of keys family1)) p == p) (sub_proj keys family1 family2).
  exact: combine_all_ok.
apply/allP => p /mapP [b bB ->]; apply/eqP; have [O1 S1] := CS (rows_of keys family1).
have [O2 S2] := CS (rows_of keys family2).
have Sb : span id_ (rows_of keys family1) b by apply: span_In; apply/In_mem.
apply/(project_fix _ O1)/S1; apply: spanD => //.
suff : span id_ (rows_of keys family1) (project (cs (rows_of keys family2)) b).
  by case=> c ->; exists (fun j => - c j); rewrite combN.
set q := project _ b.
(* split q into a part in the span of family1 and a part orthogonal to it *)
have [qa [qb [Eq Sa Sb' ob]]] : exists qa qb, [/\ q = qa + qb, span id_ (rows_of keys family1) qa,
    span id_ (rows_of keys family2) (qb : 'rV_(size (slots n1 n2 keys))) &
    forall w, span id_ (rows_of keys family1) w -> dot w qb = 0].
  have /S2 [c ->] : span id_ (cs (rows_of keys family2)) q by apply: project_span.
  have Hin x : List.In x (rows_of keys family2) -> span id_ (rows_of keys family2) x by apply: span_In.
  have Hx x : List.In x (rows_of keys family2) -> span id_ (rows_of keys family1) x \/
     forall w, span id_ (rows_of keys family1) w -> dot w x = 0.
    move=> /In_map_iff [m2 h2 ->]; have [[d Ed]|h] := H m2 h2; [left|right].
      apply/span_rows => //; last by exists d.
      by move=> k nk; rewrite Ed (fcoef_notin _ c1).
    by apply: ortho_span => r /In_map_iff [m1 h1 ->]; rewrite -inner_enc h.
  rewrite /comb; elim/big_ind: _ => [|x y [xa [xb [Ex x1 x2 x3]]] [ya [yb [Ey y1 y2 y3]]]|j _].
  - by exists 0, 0; split=> [||| w _]; rewrite ?addr0 ?dot0r //; apply: span0.
  - exists (xa + ya), (xb + yb); split; rewrite ?Ex ?Ey; first by rewrite addrACA.
    + exact: spanD.
    + exact: spanD.
    + by move=> w Sw; rewrite dotDr x3 ?y3 ?addr0.
  have hj : List.In (rows_of keys family2)`_j (rows_of keys family2) by apply: nth_In.
  have sc X x : span id_ X x -> span id_ X (c j *: x).
    by case=> d ->; exists (fun i => c j * d i); rewrite combZ.
  case: (Hx _ hj) => h.
    by exists (c j *: (rows_of keys family2)`_j), 0; split=> [||| w _]; rewrite ?addr0 ?dot0r //; [apply: sc|apply: span0].
  exists 0, (c j *: (rows_of keys family2)`_j); split=> [||| w Sw]; rewrite ?add0r ?dotZr ?h ?mulr0 //.
    exact: span0.
  by apply: sc; apply: Hin.
suff q0 : qb = 0 by rewrite Eq q0 addr0.
apply/eqP; rewrite -dot_eq0; apply/eqP.
have e1 : dot qb (b - q) = 0 by move/S2: Sb'; apply: ortho_span; apply: project_ortho.
move: e1; rewrite dotDr dotNr dotC ob // sub0r Eq dotDr (dotC qb) ob // add0r => /eqP.
by rewrite oppr_eq0 => /eqP.
Qed.

(* the members of family1 in the span of family2 are not used *)
Lemma subtract_skip family1 family2 res : (0 < size family1)%N -> (0 < size family2)%N ->
  (forall m, List.In m family1 -> good m) -> (forall m, List.In m family2 -> good m) ->
  subtract_family kone cs family1 family2 = Ok res ->
  forall m, List.In m res -> exists c, is_comb family1 c m /\
    forall j m0, (j < size family1)%N -> fspan family2 (nth m0 family1 j) -> c j = 0.
Proof.
move=> s1 s2 g1 g2; have [keys [c1 c2 ->]] := subtract_unfold s1 s2; case: ifP => // _ E m hm.
have [_ _ _ sr] := combine_all_props s1 g1 E.
have /sr [w Sw Ew] : fspan res m.
  move: hm => /(In_nth m) [j lj ->]; exists (fun i => (i == j)%:R) => k.
  rewrite /FamilyProofs.fcoef (bigD1 (Ordinal lj)) //= eqxx scale1r (nth_map m) //.
  rewrite big1 ?addr0 // => i ij; rewrite (_ : (i == j :> nat) = false) ?scale0r //.
  by apply/negbTE; apply: contraNneq ij => e; apply/eqP/val_inj.
exists (rowf w); split=> // j m0 lj [d Ed].
have [O2 S2] := CS (rows_of keys family2).
rewrite (_ : rowf w j = w 0 (Ordinal lj)); last by rewrite -rowfE.
have Pj : (sub_proj keys family1 family2)`_j = 0.
  rewrite (nth_map 0) ?size_map // (nth_map m0) //; apply/(project0 _ O2)/S2/span_rows => //.
    by move=> k nk; rewrite Ed (fcoef_notin _ c2).
  by exists d.
have [_ S] := CS (columns (size family1) (sub_proj keys family1 family2)).
move/S: Sw => [a ->]; rewrite /comb summxE big1 // => t _.
rewrite mxE (_ : _ 0 _ = 0) ?mulr0 //.
have /In_map_iff [t' _ ->] : List.In (columns (size family1) (sub_proj keys family1 family2))`_t (columns (size family1) (sub_proj keys family1 family2)).
  exact: nth_In.
by rewrite mxE Pj mxE.
Qed.

(* C41 holds when every member of family1 is in the span of family2 or orthogonal to it *)
Theorem C41_memberwise family1 family2 res : (0 < size family1)%N -> (0 < size family2)%N ->
  (forall m, List.In m family1 -> good m) -> (forall m, List.In m family2 -> good m) ->
  (forall m1, List.In m1 family1 -> fspan family2 m1 \/
     forall keys m2, List.In m2 family2 -> inner keys (fun k => coef m1 k) (fun k => coef m2 k) = 0) ->
  subtract_family kone cs family1 family2 = Ok res ->
  forall keys m m2, List.In m res -> List.In m2 family2 -> inner keys (fun k => coef m k) (fun k => coef m2 k) = 0.
Proof.
move=> s1 s2 g1 g2 H E keys m m2 hm h2; have [c [Ec c0]] := subtract_skip s1 s2 g1 g2 E hm.
have -> : inner keys (fun k => coef m k) (fun k => coef m2 k) = inner keys (fcoef family1 c) (fun k => coef m2 k).
  by apply: eq_bigr => k _; rewrite Ec.
rewrite inner_enc -enc_comb dot_combl size_map big1 // => -[j lj] _ /=.
have [m1 _] : exists m1 : model, true by case: (family1) s1 => // m1; exists m1.
have hj : List.In (nth m1 family1 j) family1 by apply: nth_In.
rewrite (nth_map m1) //; case: (H _ hj) => [S|h]; first by rewrite (c0 j m1) ?mul0r.
by rewrite -inner_enc h // mulr0.
Qed.
End Subtract.
End Tools.

(* C41: subtract {k1} from {k1, k1 + k2}: the result contains k1 + k2, for every
   nullspace routine *)
Theorem C41_orthogonal_refuted (F : rcfType) (cs : forall N, seq 'rV[F]_N -> seq 'rV[F]_N) :
  exact_complement cs ->
  let X (ks : seq nat) : model nat_eqType unit_eqType [lmodType F[i] of 'M[F[i]]_1] :=
    Mk [seq (Sym k, 1%:M) | k <- ks] [::] tt in
  exists res m, [/\ subtract_family 0%N cs [:: X [:: 1%N]; X [:: 1%N; 2%N]] [:: X [:: 1%N]] = Ok res,
    List.In m res & inner [:: 1%N; 2%N] (fun k => dget 0%N (mdata m) (Sym k)) (fun k => dget 0%N (mdata (X [:: 1%N])) (Sym k)) != 0].
Proof.
move=> CS X.
have g1 m : List.In m [:: X [:: 1%N]; X [:: 1%N; 2%N]] -> good 0%N tt m by case=> [<-|[<-|//]].
have g2 m : List.In m [:: X [:: 1%N]] -> good 0%N tt m by case=> [<-|//].
have f1 : fspan 0%N [:: X [:: 1%N]; X [:: 1%N; 2%N]] (X [:: 1%N]).
  exists (fun j => (j == 0%N)%:R) => k.
  by rewrite /FamilyProofs.fcoef /= !big_ord_recl big_ord0 /= scale1r scale0r !addr0.
have f2 : fspan 0%N [:: X [:: 1%N]] (X [:: 1%N]).
  by exists (fun=> 1) => k; rewrite /FamilyProofs.fcoef /= !big_ord_recl big_ord0 /= scale1r !addr0.
have [res E] : exists res, subtract_family 0%N cs [:: X [:: 1%N]; X [:: 1%N; 2%N]] [:: X [:: 1%N]] = Ok res.
  have A := C40_accepts CS _ _ g1 g2.
  by apply: A => // m2 [<-|//]; left.
have B := C40_subtract_family CS _ _ g1 g2 E; have [_ _ H _] := B isT isT.
have skip m : List.In m res -> exists a : F, forall k, dget 0%N (mdata m) (Sym k) = a%:C *: dget 0%N (mdata (X [:: 1%N; 2%N])) (Sym k).
  have S := subtract_skip CS _ _ g1 g2 E; move=> /(S isT isT) [c [Ec c0]]; exists (c 1%N) => k; rewrite Ec.
  have e0 : c 0%N = 0 by apply: (c0 0%N (X [::])).
  by rewrite /FamilyProofs.fcoef /= !big_ord_recl big_ord0 /= e0 scale0r add0r addr0.
have [c [d Ec]] : exists c d, forall k, dget 0%N (mdata (X [:: 1%N; 2%N])) (Sym k) = fcoef 0%N res c k + fcoef 0%N [:: X [:: 1%N]] d k.
  apply: H; exists (fun j => (j == 1%N)%:R) => k.
  by rewrite /FamilyProofs.fcoef /= !big_ord_recl big_ord0 /= scale1r scale0r addr0 add0r.
have [m hm nz] : exists2 m, List.In m res & dget 0%N (mdata m) (Sym 2%N) != 0.
  have : fcoef 0%N res c 2%N != 0.
    have := Ec 2%N; rewrite [X in _ + X](_ : _ = 0) ?addr0 => [<-|].
      by rewrite /=; apply/eqP => /matrixP /(_ 0 0) /eqP; rewrite !mxE oner_eq0.
    by rewrite /FamilyProofs.fcoef /= !big_ord_recl big_ord0 /= scaler0 addr0.
  elim: (res) c {Ec} => [|x l IH] c; first by rewrite fcoef_nil eqxx.
  rewrite fcoef_cons; case: (eqVneq (dget 0%N (mdata x) (Sym 2%N)) 0) => [->|n0 _]; last by exists x; [left|].
  by rewrite scaler0 add0r => /IH [m h1 h2]; exists m; [right|].
exists res, m; split=> //; have [a Ea] := skip m hm.
have a0 : a != 0 by apply: contraNneq nz => a0; rewrite Ea a0 scale0r.
rewrite /inner !big_cons big_nil addr0 !Ea !big_ord1 /= !mxE eqxx.
by rewrite !mulr1 !mulr0 /= !(mul0r, mulr0, mulr1, oppr0, subr0, addr0).
Qed.

(* concrete cases: a repeated member, and a subtraction that is accepted *)
Example C38_repeated (F : rcfType) :
  let X (ks : seq nat) : model nat_eqType unit_eqType [lmodType F[i] of 'M[F[i]]_1] :=
    Mk [seq (Sym k, 1%:M) | k <- ks] [::] tt in
  exists res, [/\ remove_duplicates 0%N (fun N => @gram_schmidt F N [::]) [:: X [:: 1%N]; X [:: 1%N]; X [:: 2%N; 1%N]] = Ok res, findep 0%N res &
    forall m, fspan 0%N res m <-> fspan 0%N [:: X [:: 1%N]; X [:: 1%N]; X [:: 2%N; 1%N]] m].
Proof.
move=> X.
have g m : List.In m [:: X [:: 1%N]; X [:: 1%N]; X [:: 2%N; 1%N]] -> good 0%N tt m by case=> [<-|[<-|[<-|//]]].
have [res [h1 h2 _ h4]] := C38_remove_duplicates (@gram_schmidt_exact F) g.
by exists res; split.
Qed.
Example C40_accepted (F : rcfType) :
  let X (ks : seq nat) : model nat_eqType unit_eqType [lmodType F[i] of 'M[F[i]]_1] :=
    Mk [seq (Sym k, 1%:M) | k <- ks] [::] tt in
  exists res, subtract_family 0%N (fun N => @gram_schmidt F N [::]) [:: X [:: 1%N]; X [:: 1%N; 2%N]] [:: X [:: 1%N]] = Ok res.
Proof.
by move=> X; have [res [m [h _ _]]] := C41_orthogonal_refuted (@gram_schmidt_exact F); exists res.
Qed.
Print Assumptions C38_remove_duplicates.
Print Assumptions C41_orthogonal_refuted.
