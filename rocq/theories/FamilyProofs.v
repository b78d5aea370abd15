(* Families of Models as vectors: facts used by C31-C41. *)
From mathcomp Require Import all_ssreflect all_algebra.
From mathcomp Require Import complex.
From Verif Require Import Prelude ModelCore ModelProofs Keys KeysProofs LinSpan NullSpec Family.

Set Implicit Arguments.
Unset Strict Implicit.
Unset Printing Implicit Defensive.
Import GRing.Theory Num.Theory.
Local Open Scope ring_scope.
Local Open Scope complex_scope.

(* ---- mapM ---- *)
Lemma mapM_ok A B (f : A -> res B) s ys : mapM f s = Ok ys ->
  size ys = size s /\ forall x0 y0 j, (j < size s)%N -> f (nth x0 s j) = Ok (nth y0 ys j).
Proof.
elim: s ys => [|x s IH] ys /=; first by case=> <-.
case e: (f x) => [y|] //=; case e': (mapM f s) => [ys'|] //= [<-].
have [sz H] := IH _ e'; split; first by rewrite /= sz.
by move=> x0 y0 [|j] //= lj; apply: H.
Qed.
Lemma mapM_total A B (f : A -> res B) s : (forall x, List.In x s -> exists y, f x = Ok y) -> exists ys, mapM f s = Ok ys.
Proof.
elim: s => [|x s IH] H /=; first by exists [::].
have [|y ->] := H x; first by left.
have [|ys ->] := IH; first by move=> z zs; apply: H; right.
by exists (y :: ys).
Qed.
Lemma mapM_In A B (f : A -> res B) s ys y : mapM f s = Ok ys -> List.In y ys -> exists2 x, List.In x s & f x = Ok y.
Proof.
elim: s ys => [|x s IH] ys /=; first by case=> <-.
case e: (f x) => [y'|] //=; case e': (mapM f s) => [ys'|] //= [<-] /= [<-|h].
  by exists x; [left|].
by have [z zs ez] := IH _ e' h; exists z; [right|].
Qed.
Lemma mapM_In' A B (f : A -> res B) s ys x : mapM f s = Ok ys -> List.In x s -> exists2 y, List.In y ys & f x = Ok y.
Proof.
elim: s ys => [|x' s IH] ys //=.
case e: (f x') => [y'|] //=; case e': (mapM f s) => [ys'|] //= [<-] /= [<-|h].
  by exists y'; [left|].
by have [z zs ez] := IH _ e' h; exists z; [right|].
Qed.

Section Family.
Variables (F : rcfType) (n1 n2 : nat) (K : eqType) (kone : K) (Mom : eqType).
Local Notation C := F[i].
Local Notation V := [lmodType C of 'M[C]_(n1, n2)].
Local Notation model := (model K Mom V).
Local Notation coef m k := (dget kone (mdata m) (Sym k)).
Implicit Types (family fam : seq model) (m : model) (c : nat -> F).

Definition m0 (mom : Mom) : model := Mk [::] [::] mom.

(* the matrix at key k of the combination sum_j c_j family[j] *)
Definition fcoef family c k : 'M[C]_(n1, n2) :=
  \sum_(j < size family) (c j)%:C *: nth 0 [seq coef m k : 'M[C]_(n1, n2) | m <- family] j.
(* m has the values of that combination *)
Definition is_comb family c m : Prop := forall k, coef m k = fcoef family c k.
Definition fspan family m : Prop := exists c, is_comb family c m.
Definition findep family : Prop :=
  forall c, (forall k, fcoef family c k = 0) -> forall j, (j < size family)%N -> c j = 0.

(* ---- the encoding ---- *)
Definition slot := (K * bool * 'I_n1 * 'I_n2)%type.
Definition part (b : bool) (z : C) : F := if b then complex.Im z else complex.Re z.
Definition entry (A : K -> 'M[C]_(n1, n2)) (x : slot) : F := part x.1.1.2 (A x.1.1.1 x.1.2 x.2).
Definition slots (keys : seq K) : seq slot :=
  flatten [seq [seq ((k, false), i, j) | i <- enum 'I_n1, j <- enum 'I_n2] ++
               [seq ((k, true), i, j) | i <- enum 'I_n1, j <- enum 'I_n2] | k <- keys].

Lemma slotsP keys k b i j : k \in keys -> (k, b, i, j) \in slots keys.
Proof.
move=> kk; apply/flattenP; eexists; first by apply/mapP; exists k.
rewrite mem_cat; case: b; apply/orP; [right|left]; apply/allpairsP;
  by exists (i, j); rewrite ?mem_enum.
Qed.

Lemma member_vectorE keys m : member_vector kone keys m = [seq entry (fun k => coef m k) x | x <- slots keys].
Proof.
rewrite /member_vector /slots map_flatten -map_comp; congr flatten; apply: eq_map => k /=.
by rewrite map_cat !map_allpairs.
Qed.

Lemma part_comb b N (c : 'I_N -> F) (z : 'I_N -> C) : part b (\sum_j (c j)%:C * z j) = \sum_j c j * part b (z j).
Proof.
elim/big_rec2: _ => [|j y1 y2 _ IH]; first by case: b.
move: IH; case: (z j) y2 => a a' [y y']; case: b => /= <-; first by rewrite mul0r addr0.
by rewrite mul0r subr0.
Qed.

Lemma entry_comb family c x :
  entry (fcoef family c) x = \sum_(j < size family) c j * nth 0 [seq entry (fun k => coef m k) x | m <- family] j.
Proof.
rewrite /entry /fcoef summxE.
under eq_bigr => j _ do rewrite mxE.
rewrite part_comb; apply: eq_bigr => j _; congr (_ * _).
have [m _] : exists m : model, true by case: (family) j => [[]|m] //; exists m.
by rewrite !(nth_map m) //.
Qed.

Lemma entry0P A (keys : seq K) : (forall k, k \notin keys -> A k = 0) ->
  (forall x, x \in slots keys -> entry A x = 0) <-> (forall k, A k = 0).
Proof.
move=> H; split=> [E k|E x _]; last by rewrite /entry E mxE; case: (x.1.1.2).
case: (boolP (k \in keys)) => [kk|/H //]; apply/matrixP => i j; rewrite mxE; apply/eqP.
rewrite eq_complex /=; apply/andP; split; apply/eqP.
  exact: (E _ (slotsP false i j kk)).
exact: (E _ (slotsP true i j kk)).
Qed.

Lemma fcoef_notin family c (keys : seq K) k :
  all (fun m => all (fun k => k \in keys) (dkeys kone (mdata m))) family -> k \notin keys -> fcoef family c k = 0.
Proof.
move=> /allIn H nk; apply: big1 => j _.
rewrite (_ : nth 0 _ j = 0) ?scaler0 //.
have [m1 Hm1] : exists m1 : model, True by case: (family) j => [[]|m'] //; exists m'.
rewrite (nth_map m1) // dget_notin //=; apply: contra nk => kd.
by have /allP := H _ (nth_In m1 (ltn_ord j)); apply.
Qed.

Lemma f2v_ok family keys vs : family_to_vectors kone family (Some keys) = Ok vs ->
  vs = [seq member_vector kone keys m | m <- family] /\
  all (fun m => all (fun k => k \in keys) (dkeys kone (mdata m))) family.
Proof.
rewrite /family_to_vectors; case: ifP => // /negbT; rewrite negbK => H.
case: ifP => [/nilP E [<-]|_]; first by split=> //; rewrite E.
by case: ifP => // _ [<-].
Qed.
Definition covered (keys : seq K) family : bool :=
  all (fun m => all (fun k => k \in keys) (dkeys kone (mdata m))) family.
Lemma f2v_total family (keys : seq K) : (0 < size family)%N \/ keys = [::] -> covered keys family ->
  family_to_vectors kone family (Some keys) = Ok [seq member_vector kone keys m | m <- family].
Proof.
rewrite /family_to_vectors /covered => H ->; case: ifP => [/nilP -> //|/negbT nk] /=.
by case: ifP => // /nilP E; case: H nk => [|->] //; rewrite E.
Qed.
Lemma f2v_reject family (keys : seq K) : ~~ covered keys family ->
  family_to_vectors kone family (Some keys) = Err AssertionError.
Proof. by rewrite /family_to_vectors => /negPf; rewrite /covered => ->. Qed.

Lemma covered_keys family : covered (family_keys kone family) family.
Proof.
apply/allIn => m mf; apply/allP => k kd; rewrite mem_undup; apply/flattenP.
by exists (dkeys kone (mdata m)) => //; elim: family mf => //= m' l IH [->|/IH h]; rewrite inE ?eqxx ?h ?orbT.
Qed.

Definition ventry family (x : slot) (j : nat) : F := nth 0 [seq entry (fun k => coef m k) x | m <- family] j.
Lemma transposeE N fam (keys : seq K) : size fam = N -> (0 < N)%N ->
  transpose N [seq member_vector kone keys m | m <- fam] = [seq \row_(j < N) ventry fam x j | x <- slots keys].
Proof.
move=> <- n0; have [m1 [fam' E]] : exists m1 fam', fam = m1 :: fam'.
  by case: fam n0 => // m1 fam'; exists m1, fam'.
rewrite /transpose.
have -> : size (head [::] [seq member_vector kone keys m | m <- fam]) = size (slots keys).
  by rewrite E /= member_vectorE size_map.
case: (posnP (size (slots keys))) => [/size0nil -> //|s0].
have [x0 _] : exists x0 : slot, true by case: (slots keys) s0 => // x0; exists x0.
apply: (@eq_from_nth _ 0) => [|t]; rewrite !size_map size_iota // => lt.
rewrite (nth_map 0%N) ?size_iota // nth_iota // add0n (nth_map x0) //; apply/rowP => j; rewrite !mxE.
by rewrite /ventry !(nth_map m1) // member_vectorE (nth_map x0).
Qed.
Lemma ventry_comb fam c x : entry (fcoef fam c) x = \sum_(j < size fam) c j * ventry fam x j.
Proof. exact: entry_comb. Qed.
Lemma ventry_dot N fam (v : 'rV[F]_N) x : size fam = N ->
  \sum_(j < N) (\row_(j < N) ventry fam x j) 0 j * v 0 j = entry (fcoef fam (rowf v)) x.
Proof.
by move=> E; subst N; rewrite ventry_comb; apply: eq_bigr => j _; rewrite mxE rowfE mulrC.
Qed.

(* the rows of the transposed matrix vanish on v iff the combination vanishes *)
Lemma transpose_sem N fam (keys : seq K) (v : 'rV[F]_N) : size fam = N -> (0 < N)%N -> covered keys fam ->
  (forall r, List.In r (transpose N [seq member_vector kone keys m | m <- fam]) -> \sum_j r 0 j * v 0 j = 0) <->
  (forall k, fcoef fam (rowf v) k = 0).
Proof.
move=> sz n0 cv; rewrite transposeE //.
rewrite -(entry0P (keys := keys)); last by move=> k; apply: fcoef_notin.
split=> [H x xs|H r /In_map_iff [x /In_mem xs ->]]; last by rewrite ventry_dot // H.
by rewrite -ventry_dot //; apply: H; apply/In_map_iff; exists x => //; apply/In_mem.
Qed.
Lemma transpose_sub_sem N fam fam' (keys : seq K) (v : 'rV[F]_N) :
  size fam = N -> size fam' = N -> (0 < N)%N -> covered keys fam -> covered keys fam' ->
  (forall r, List.In r [seq ab.1 - ab.2 | ab <- zip (transpose N [seq member_vector kone keys m | m <- fam'])
                                                    (transpose N [seq member_vector kone keys m | m <- fam])] ->
     \sum_j r 0 j * v 0 j = 0) <->
  (forall k, fcoef fam' (rowf v) k = fcoef fam (rowf v) k).
Proof.
move=> sz sz' n0 cv cv'; rewrite !transposeE // zip_map -map_comp.
have E A B x : entry A x - entry B x = entry (fun k => A k - B k) x.
  by rewrite /entry !mxE /part; case: (x.1.1.2); case: (A _ _ _) (B _ _ _) => [? ?] [].
have D x : \sum_j (\row_(j < N) ventry fam' x j - \row_(j < N) ventry fam x j) 0 j * v 0 j =
  entry (fun k => fcoef fam' (rowf v) k - fcoef fam (rowf v) k) x.
  rewrite -E -!(ventry_dot v x) //; rewrite -sumrB; apply: eq_bigr => j _.
  by rewrite !mxE mulrBl.
transitivity (forall k, fcoef fam' (rowf v) k - fcoef fam (rowf v) k = 0); last first.
  by split=> H k; [apply/eqP; rewrite -subr_eq0 H|rewrite H subrr].
rewrite -(entry0P (keys := keys)); last first.
  by move=> k nk; rewrite !(fcoef_notin _ _ nk) // subrr.
split=> [H x xs|H r /In_map_iff [x /In_mem xs ->]]; last by rewrite /= D H.
by rewrite -D; apply: H; apply/In_map_iff; exists x => //; apply/In_mem.
Qed.

(* ---- sums of Models ---- *)
Definition good (mom : Mom) m : Prop := [/\ wf_model kone m, all_sym m & mmom m = mom].

Lemma psum_props mom (l : seq model) : (0 < size l)%N -> (forall m, List.In m l -> good mom m) ->
  exists m, [/\ psum kone l = Ok m, good mom m & forall k, coef m k = \sum_(x <- l) coef x k].
Proof.
case: l => // m l _ H.
have [w s mo] := H m (or_introl erefl).
have Hl x : List.In x l -> good mom x by move=> h; apply: H; right.
rewrite /psum; have -> : mcopy m = m by case: (m).
have {H} : good mom m by [].
elim: l m Hl {w s mo} => [|x l IH] m Hl [w s mo] /=.
  by exists m; split=> // k; rewrite big_seq1.
have [wx sx mx] := Hl x (or_introl erefl).
have Em : mmom m = mmom x by rewrite mo mx.
have A := madd'P kone Em; rewrite A.
have [||r [Er gr cr]] := IH (madd' kone m x).
- by move=> y h; apply: Hl; right.
- split; [exact: madd_wf A|exact: all_sym_madd'|by rewrite (madd_mom Em A)].
exists r; split=> // k; rewrite cr !big_cons (madd_coef k A) addrA //.
Qed.

Lemma coef_scale (s : C) m k : coef (mscale s m) k = s *: coef m k.
Proof.
rewrite /mscale /=; elim: (mdata m) => [|kv d IH] /=; first by rewrite scaler0.
by rewrite /pk_eq /= IH; case: ifP.
Qed.
Lemma good_scale mom (s : C) m : good mom m -> good mom (mscale s m).
Proof. by case=> w sy mo; split; rewrite ?mscale_wf ?mscale_sym. Qed.

Lemma combine_props mom fam (cs : seq C) : (0 < size fam)%N -> size cs = size fam ->
  (forall m, List.In m fam -> good mom m) ->
  exists m, [/\ combine kone fam cs = Ok m, good mom m &
    forall k, coef m k = \sum_(j < size fam) cs`_j *: nth 0 [seq coef m k : 'M[C]_(n1, n2) | m <- fam] j].
Proof.
move=> n0 sz H; have [m1 _] : exists m1 : model, true by case: fam n0 {sz H} => // m1; exists m1.
have [||m [E g c]] := @psum_props mom [seq mscale cm.1 cm.2 | cm <- zip cs fam].
- by rewrite size_map size1_zip ?sz.
- move=> m /In_map_iff [[c x] h ->]; apply: good_scale; apply: H.
  by elim: cs fam h {n0 sz} => [|c' cs IH] [|y fam] //= [[_ ->]|/IH]; [left|right].
exists m; split=> // k; rewrite c big_map (big_nth (0, m1)) size1_zip ?sz // big_mkord; apply: eq_bigr => j _.
by rewrite nth_zip //= coef_scale (nth_map m1).
Qed.

Lemma rowseq_nth N (v : 'rV[F]_N) (j : 'I_N) : (rowseq v)`_j = (rowf v j)%:C.
Proof. by rewrite rowfE (nth_map j) ?size_enum_ord // nth_ord_enum. Qed.
Lemma size_rowseq N (v : 'rV[F]_N) : size (rowseq v) = N.
Proof. by rewrite size_map size_enum_ord. Qed.

Lemma combine_row mom fam (v : 'rV[F]_(size fam)) : (0 < size fam)%N ->
  (forall m, List.In m fam -> good mom m) ->
  exists m, [/\ combine kone fam (rowseq v) = Ok m, good mom m & is_comb fam (rowf v) m].
Proof.
move=> n0 H; have [m [E g c]] := combine_props n0 (size_rowseq v) H.
by exists m; split=> // k; rewrite c; apply: eq_bigr => j _; rewrite rowseq_nth.
Qed.
End Family.
