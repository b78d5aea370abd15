(* C31, C32: vector representation of families and symmetry constraints. *)
From mathcomp Require Import all_ssreflect all_algebra.
From mathcomp Require Import complex.
From Verif Require Import Prelude ModelCore ModelProofs PropModel PGE PGEProofs Keys KeysProofs PropApply PropCGG LinSpan NullSpec PropLinalg Family FamilyProofs.

Set Implicit Arguments.
Unset Strict Implicit.
Unset Printing Implicit Defensive.
Import GRing.Theory Num.Theory.
Local Open Scope ring_scope.
Local Open Scope complex_scope.

Section Family.
Variables (F : rcfType) (n1 n2 : nat) (K : eqType) (kone : K) (Mom : eqType).
Local Notation C := F[i].
Local Notation V := [lmodType C of 'M[C]_(n1, n2)].
Local Notation model := (model K Mom V).
Local Notation coef m k := (dget kone (mdata m) (Sym k)).
Local Notation fcoef := (fcoef kone).
Local Notation is_comb := (is_comb kone).
Local Notation fspan := (fspan kone).
Local Notation good := (good kone).
Implicit Types (family fam : seq model) (m : model) (c : nat -> F).

(* C31: a real combination of the members vanishes iff the same combination of the
   rows does, whatever the order of the keys *)
Theorem C31_faithful family keys vs c : family_to_vectors kone family (Some keys) = Ok vs ->
  (forall k, fcoef family c k = 0) <-> (forall t, \sum_(j < size family) c j * (nth [::] vs j)`_t = 0).
Proof.
move=> /f2v_ok [-> cv]; rewrite -(entry0P (keys := keys)); last by move=> k; apply: fcoef_notin.
case: (posnP (size family)) => [E0|n0].
  split=> [_ t|_ x _]; first by rewrite big1 // => j; case: j => j lj; exfalso; move: lj; rewrite E0.
  by rewrite ventry_comb big1 // => j; case: j => j lj; exfalso; move: lj; rewrite E0.
have [m1 _] : exists m1 : model, true by case: (family) n0 => // m1; exists m1.
have E t x0 : (t < size (slots n1 n2 keys))%N ->
    \sum_(j < size family) c j * (nth [::] [seq member_vector kone keys m | m <- family] j)`_t =
    entry (fcoef family c) (nth x0 (slots n1 n2 keys) t).
  move=> lt; rewrite ventry_comb; apply: eq_bigr => j _.
  by rewrite /ventry !(nth_map m1) // member_vectorE (nth_map x0).
split=> [H t|H x xs].
  case: (ltnP t (size (slots n1 n2 keys))) => lt.
    have [x0 _] : exists x0 : slot n1 n2 K, true by case: (slots n1 n2 keys) lt => // x0; exists x0.
    by rewrite (E t x0) // H // mem_nth.
  by rewrite big1 // => j _; rewrite (nth_map m1) // nth_default ?mulr0 // member_vectorE size_map.
by rewrite -(nth_index x xs) -E ?index_mem.
Qed.

(* every row has the same length, and there is a row for every member *)
Theorem C31_shape family keys vs : family_to_vectors kone family (Some keys) = Ok vs ->
  size vs = size family /\ forall v, v \in vs -> size v = (size keys * (n1 * n2 + n1 * n2))%N.
Proof.
move=> /f2v_ok [-> _]; rewrite size_map; split=> // v.
have : List.In v [seq member_vector kone keys m | m <- family] -> size v = (size keys * (n1 * n2 + n1 * n2))%N.
  move=> /In_map_iff [m _ ->]; rewrite /member_vector size_flatten /shape -map_comp sumnE big_map.
  rewrite (eq_bigr (fun=> n1 * n2 + n1 * n2)%N) => [|k _]; last first.
    by rewrite /= size_cat !size_allpairs !size_enum_ord.
  by rewrite big_const_seq count_predT iter_addn addn0 mulnC.
by move=> H /In_mem.
Qed.

(* rejected exactly when some term is outside all_keys *)
Theorem C31_rejects family keys : (0 < size family)%N ->
  is_ok (family_to_vectors kone family (Some keys)) <->
  (forall m k, List.In m family -> k \in dkeys kone (mdata m) -> k \in keys).
Proof.
move=> n0; split=> [|H].
  case e: (family_to_vectors _ _ _) => [vs|] // _ m k mf kd; have [_ /allIn H] := f2v_ok e.
  by have /allP := H m mf; apply.
by rewrite f2v_total //; [left|apply/allIn => m mf; apply/allP => k; apply: H].
Qed.
Theorem C31_default_accepts family : exists keys vs,
  family_to_vectors kone family None = Ok vs /\ (family_to_vectors kone family (Some keys) = Ok vs).
Proof.
exists (family_keys kone family); rewrite {1}/family_to_vectors -/(family_to_vectors kone family (Some (family_keys kone family))).
have H : (0 < size family)%N \/ family_keys kone family = [::] by case: (family) => [|m l]; [right|left].
by exists [seq member_vector kone (family_keys kone family) m | m <- family]; rewrite f2v_total // covered_keys.
Qed.

(* ---- combinations ---- *)
Lemma fcoef_cons x fam c k : fcoef (x :: fam) c k = (c 0%N)%:C *: coef x k + fcoef fam (fun j => c j.+1) k.
Proof. by rewrite /FamilyProofs.fcoef /= big_ord_recl. Qed.
Lemma fcoef_nil c k : fcoef ([::] : seq model) c k = 0. Proof. by rewrite /FamilyProofs.fcoef big_ord0. Qed.
Lemma eq_fcoef fam c c' k : (forall j, (j < size fam)%N -> c j = c' j) -> fcoef fam c k = fcoef fam c' k.
Proof. by move=> E; apply: eq_bigr => j _; rewrite E. Qed.
Lemma fcoef_row fam c k : fcoef fam c k = fcoef fam (rowf (\row_(j < size fam) c j)) k.
Proof. by apply: eq_bigr => j _; rewrite rowfE mxE. Qed.
Lemma fcoef0 fam k : fcoef fam (fun=> 0) k = 0.
Proof. by apply: big1 => j _; rewrite scale0r. Qed.

Lemma filter_comb (p : pred model) fam c : (forall m, List.In m fam -> ~~ p m -> forall k, coef m k = 0) ->
  exists c', forall k, fcoef fam c k = fcoef [seq m <- fam | p m] c' k.
Proof.
elim: fam c => [|x fam IH] c H; first by exists c.
have [|c' E] := IH (fun j => c j.+1); first by move=> m mf; apply: H; right.
rewrite /=; case: ifP => [px|/negbT px].
  by exists (fun j => if j is j'.+1 then c' j' else c 0%N) => k; rewrite !fcoef_cons E.
by exists c' => k; rewrite fcoef_cons H ?scaler0 ?add0r //; left.
Qed.
Lemma filter_comb' (p : pred model) fam c :
  exists c', forall k, fcoef [seq m <- fam | p m] c k = fcoef fam c' k.
Proof.
elim: fam c => [|x fam IH] c; first by exists c.
rewrite /=; case: ifP => [px|/negbT px].
  have [c' E] := IH (fun j => c j.+1).
  by exists (fun j => if j is j'.+1 then c' j' else c 0%N) => k; rewrite !fcoef_cons E.
have [c' E] := IH c.
by exists (fun j => if j is j'.+1 then c' j' else 0) => k; rewrite !fcoef_cons E scale0r add0r.
Qed.
Lemma fspan_filter (p : pred model) fam m : (forall m, List.In m fam -> ~~ p m -> forall k, coef m k = 0) ->
  fspan [seq m <- fam | p m] m <-> fspan fam m.
Proof.
move=> H; split=> -[c E].
  by have [c' E'] := filter_comb' p fam c; exists c' => k; rewrite E E'.
by have [c' E'] := filter_comb c H; exists c' => k; rewrite E E'.
Qed.

(* combinations of combinations *)
Lemma fcoef_combine fam hs N (ns : seq 'rV[F]_N) c k : size hs = size ns -> size fam = N ->
  (forall i m0 v0, (i < size ns)%N -> is_comb fam (rowf (nth v0 ns i : 'rV[F]_N)) (nth m0 hs i)) ->
  fcoef hs c k = fcoef fam (rowf (comb [rmorphism of idfun] ns c)) k.
Proof.
move=> sz sN H; case: (posnP (size hs)) => [e|h0].
  have := size0nil e => ->; rewrite fcoef_nil; move: sz; rewrite e => /esym /size0nil ->.
  by rewrite comb_nil; apply/esym/big1 => j _; rewrite (_ : rowf 0 j = 0) ?scale0r // /rowf; case: insub => // i; rewrite mxE.
have [m1 _] : exists m1 : model, true by case: (hs) h0 => // m1; exists m1.
subst N; rewrite {1}/FamilyProofs.fcoef.
transitivity (\sum_(i < size hs) \sum_(j < size fam) (c i * (nth 0 ns i : 'rV[F]_(size fam)) 0 j)%:C *: nth 0 [seq coef m k : 'M[C]_(n1, n2) | m <- fam] j).
  apply: eq_bigr => i _; rewrite (nth_map m1) // (H i m1 0) -?sz // scaler_sumr; apply: eq_bigr => j _.
  by rewrite rowfE scalerA -rmorphM.
rewrite exchange_big; apply: eq_bigr => j _; rewrite -scaler_suml; congr (_ *: _).
rewrite rowfE /comb summxE rmorph_sum sz; apply: eq_bigr => i _.
by rewrite [in RHS]mxE.
Qed.

(* ---- linear operations on Models ---- *)
Definition lin_op (mom : Mom) (f : model -> res model) : Prop :=
  (forall m, good mom m -> exists m', f m = Ok m') /\
  forall fam fam' c m m', (forall x, List.In x fam -> good mom x) -> good mom m ->
    is_comb fam c m -> mapM f fam = Ok fam' -> f m = Ok m' -> is_comb fam' c m'.

Section Constrain.
Variables (Sy : Type) (sapply : Sy -> model -> res model) (discrete has_U : Sy -> bool) (mom : Mom).
Variable ns : forall N, seq 'rV[F]_N -> seq 'rV[F]_N.
Hypothesis NS : exact_nullspace ns.

(* the documented meaning: invariant under a discrete symmetry, annihilated by the
   generator of a continuous one *)
Definition symmetric (s : Sy) (m : model) : Prop :=
  exists2 m', sapply s m = Ok m' & forall k, coef m' k = if discrete s then coef m k else 0.

Lemma In_zip A B (a : A) (b : B) s t : List.In (a, b) (zip s t) -> List.In a s /\ List.In b t.
Proof.
by elim: s t => [|x s IH] [|y t] //= [[-> ->]|/IH [h1 h2]]; split; [left|left|right|right].
Qed.

Lemma block_sem fam vars s rs cm (v : 'rV[F]_(size fam)) : (0 < size fam)%N -> size rs = size fam ->
  constraint_block kone discrete fam vars (s, rs) = Ok cm ->
  (forall r, List.In r cm -> \sum_j r 0 j * v 0 j = 0) <->
  (forall k, fcoef rs (rowf v) k = if discrete s then fcoef fam (rowf v) k else 0).
Proof.
move=> n0 sz; rewrite /constraint_block /=.
case e: (family_to_vectors kone rs _) => [w|] //=; have [-> cv] := f2v_ok e.
case: (discrete s) => [|[<-]]; last exact: transpose_sem.
case e': (family_to_vectors kone fam _) => [w'|] //= [<-]; have [-> cv'] := f2v_ok e'.
exact: transpose_sub_sem.
Qed.

Lemma symmetric_comb fam s rs c m : lin_op mom (sapply s) -> (forall x, List.In x fam -> good mom x) ->
  good mom m -> is_comb fam c m -> mapM (sapply s) fam = Ok rs ->
  symmetric s m <-> (forall k, fcoef rs c k = if discrete s then fcoef fam c k else 0).
Proof.
move=> [tot lin] gf gm cm er; have [m' em] := tot m gm; have cm' := lin _ _ _ _ _ gf gm cm er em.
split=> [[m'' e H] k|H]; first by move: e H; rewrite em => -[<-] /(_ k); rewrite cm' cm.
by exists m' => // k; rewrite cm' H cm.
Qed.

(* C32 *)
Theorem C32_constrain_family symmetries family result :
  (forall s, List.In s symmetries -> lin_op mom (sapply s)) ->
  (forall m, List.In m family -> good mom m) ->
  constrain_family kone sapply discrete has_U ns symmetries family = Ok result ->
  (forall m, List.In m result -> good mom m) /\
  forall m, good mom m ->
    (fspan result m <-> fspan family m /\ forall s, List.In s symmetries -> symmetric s m).
Proof.
move=> LS gf.
have [->|[m1 [fam' Ef]]] : family = [::] \/ exists m1 fam', family = m1 :: fam'.
- by case: (family) => [|m1 fam']; [left|right; exists m1, fam'].
- case=> <-; split=> // m gm; split=> [[c H]|[] //]; split; first by exists c.
  move=> s /LS L; apply/(symmetric_comb (c := c) L (fam := [::] : seq model) (rs := [::] : seq model)) => // k.
  by rewrite !fcoef_nil if_same.
have n0 : (0 < size family)%N by rewrite Ef.
rewrite /constrain_family {1}Ef; case: ifP => // _; case: ifP => // _.
case er: (mapM _ symmetries) => [rotated|] //=.
set vars := family_keys _ _.
case eb: (mapM _ _) => [cms|] //=; case: ifP => // /negbT nc.
set cm := flatten cms.
(* the meaning of the constraint matrix *)
have [szr rotE] := mapM_ok er; have [szc cmE] := mapM_ok eb.
have rs_of s rs : List.In (s, rs) (zip symmetries rotated) -> mapM (sapply s) family = Ok rs.
  move=> h; have [j lj E] := In_nth (s, rs) h; move: lj E; rewrite size1_zip ?szr // => lj.
  by rewrite nth_zip ?szr // => -[-> ->]; apply: (rotE s rs).
have cmP (v : 'rV[F]_(size family)) : (forall r, List.In r cm -> \sum_j r 0 j * v 0 j = 0) <->
    (forall s rs, List.In (s, rs) (zip symmetries rotated) ->
       forall k, fcoef rs (rowf v) k = if discrete s then fcoef family (rowf v) k else 0).
  split=> [H s rs h|H r].
    have [b bs eb'] := mapM_In' eb h; have [sz _] := mapM_ok (rs_of _ _ h).
    apply/(block_sem v n0 sz eb') => r rb; apply: H; rewrite /cm.
    elim: (cms) bs => //= b' l IH [->|/IH h']; apply/In_cat; by [left|right].
  have Hf : List.In r cm -> exists2 b, List.In b cms & List.In r b.
    rewrite /cm; elim: (cms) => //= b' l IH /In_cat [h|/IH [b h1 h2]]; first by exists b'; [left|].
    by exists b; [right|].
  move=> /Hf [b bs rb]; have [[s rs] h eb'] := mapM_In eb bs; have [sz _] := mapM_ok (rs_of _ _ h).
  by move: r rb {Hf}; apply/(block_sem v n0 sz eb'); apply: H.
have symP c m : good mom m -> is_comb family c m ->
  (forall s, List.In s symmetries -> symmetric s m) <->
  (forall r, List.In r cm -> \sum_j r 0 j * (\row_(j < size family) c j) 0 j = 0).
  move=> gm Hm; rewrite cmP.
  have E s rs : List.In (s, rs) (zip symmetries rotated) -> symmetric s m <->
    (forall k, fcoef rs (rowf (\row_(j < size family) c j)) k =
        if discrete s then fcoef family (rowf (\row_(j < size family) c j)) k else 0).
    move=> h; have [hs _] := In_zip h.
    rewrite (symmetric_comb (c := rowf (\row_(j < size family) c j)) (LS s hs) gf gm _ (rs_of _ _ h)) //.
    by move=> k; rewrite Hm fcoef_row.
  split=> [H s rs h|H s hs]; first by apply/(E s rs h); apply: H; have [] := In_zip h.
  have [j lj Ej] := In_nth s hs.
  have h : List.In (s, nth [::] rotated j) (zip symmetries rotated).
    by rewrite {1}Ej -nth_zip ?szr //; apply: nth_In; rewrite size1_zip ?szr.
  by apply/(E _ _ h); apply: H.
case: ifP => [/allIn Hz [<-]|_].
  split=> // m gm; split=> [[c H]|[] //]; split; first by exists c.
  apply/(symP c m gm H) => r /Hz /eqP ->; apply: big1 => j _.
  by rewrite [(0 : 'rV__) _ _]mxE mul0r.
case eh: (mapM _ (ns cm)) => [hs|] //= [<-].
have [szh hsE] := mapM_ok eh.
have hsP i m0 v0 : (i < size (ns cm))%N -> is_comb family (rowf (nth v0 (ns cm) i)) (nth m0 hs i).
  move=> li; have := hsE v0 m0 i li; have [m [-> _ cmb]] := combine_row (nth v0 (ns cm) i) n0 gf.
  by case=> <-.
have ghs m : List.In m hs -> good mom m.
  move=> h; have [v _ ev] := mapM_In eh h.
  by have [m' [em gm _]] := combine_row v n0 gf; move: ev; rewrite em => -[<-].
split=> [m|m gm].
  move=> h; apply: ghs; elim: (hs) h => //= x l IH; case: ifP => _ /=; last by move=> /IH; right.
  by case=> [->|/IH]; [left|right].
rewrite fspan_filter; last by move=> x _; rewrite negbK => /nilP e k; rewrite e.
have [_ B] := NS cm.
split=> [[c H]|[[c H] S]].
  have Hm : is_comb family (rowf (comb [rmorphism of idfun] (ns cm) c)) m.
    by move=> k; rewrite H (fcoef_combine _ _ szh erefl hsP).
  split; first by eexists; exact: Hm.
  have /B Hc : span [rmorphism of idfun] (ns cm) (comb [rmorphism of idfun] (ns cm) c) by exists c.
  apply/(symP _ m gm Hm) => r rc; rewrite -[RHS](Hc r rc).
  by apply: eq_bigr => j _; rewrite mxE rowfE.
have /B [d Ed] : forall r, List.In r cm -> \sum_j r 0 j * (\row_(j < size family) c j) 0 j = 0.
  exact/(symP c m gm H).
by exists d => k; rewrite H fcoef_row Ed (fcoef_combine _ _ szh erefl hsP).
Qed.
End Constrain.
End Family.
