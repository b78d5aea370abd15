(* C94, C95: continuous_symmetries. *)
From mathcomp Require Import all_ssreflect all_algebra.
From mathcomp Require Import complex realalg zify.
From Verif Require Import Prelude ModelCore ModelProofs PropModel PGE PGEProofs Keys KeysProofs PropApply PropCGG LinSpan NullSpec MatBasisProofs PropLinalg Family FamilyProofs PropFamily FamilyOps PropConstrain PropContinuum Linalg SymBlocks PropBlocks PropConserved ContSym.

Set Implicit Arguments.
Unset Strict Implicit.
Unset Printing Implicit Defensive.
Import GRing.Theory Num.Theory.
Local Open Scope ring_scope.
Local Open Scope complex_scope.

(* ---- the action of a generator, key by key ---- *)
Section Act.
Variables (F : rcfType) (dim : nat) (Q : eqType) (qone : Q) (Mom : eqType) (mom : Mom) (n : nat).
Local Notation C := F[i].
Local Notation key := [eqType of Keys.key F dim Q].
Local Notation mat := [lmodType C of 'M[C]_n.+1].
Local Notation kmodel := (model key Mom mat).
Let ko : key := kone F dim qone.
Local Notation coef m k := (dget ko (mdata m) (Sym k) : 'M[C]_n.+1).
Local Notation good := (FamilyProofs.good ko mom).
Implicit Types (m : kmodel) (x k : key).

(* the coefficient of k in d x / d k_i * k_j *)
Definition dcoef k (i j : 'I_dim) x : C :=
  ((pwadd (pwdec (kpow x) i) (pwe j), khop x, kpar x) == k)%:R * (kpow x i)%:R
  + ((pwadd (kpow x) (pwe j), khop x, kpar x) == k)%:R * ('i * (khop x 0 i)%:C).
Definition dterm m k (i j : 'I_dim) : 'M[C]_n.+1 := meval ko (dcoef k i j) m.
Definition act (R : 'M[C]_dim) (U : 'M[C]_n.+1) m k : 'M[C]_n.+1 :=
  'i *: (\sum_i \sum_j R i j *: dterm m k i j) + 'i *: (coef m k *m U - U *m coef m k).

Lemma kder_coef (R : 'M[C]_dim) k x :
  \sum_(ck <- kder R x) (ck.2 == k)%:R * ck.1 = \sum_i \sum_j R i j * dcoef k i j x.
Proof.
rewrite /kder big_flatten /= big_allpairs_dep /= big_enum /=; apply: eq_bigr => i _.
rewrite big_enum /=; apply: eq_bigr => j _.
rewrite !big_cons big_nil addr0 /= /dcoef mulrDr; congr (_ + _).
  by rewrite mulrA mulrC.
by rewrite [RHS]mulrC -[RHS]mulrA.
Qed.

Lemma coef_mmap n' (f : mat -> [lmodType C of 'M[C]_n'.+1]) m k : f 0 = 0 ->
  (dget ko (mdata (mmap (W := [lmodType C of 'M[C]_n'.+1]) f m)) (Sym k) : 'M[C]_n'.+1) = f (coef m k).
Proof.
move=> f0; rewrite /mmap /=; elim: (mdata m) => [|kv l IH] /=; first by rewrite f0.
by rewrite IH; case: ifP.
Qed.

Definition optm (R : option 'M[C]_dim) : 'M[C]_dim := if R is Some R' then R' else 0.
Definition optu (U : option 'M[C]_n.+1) : 'M[C]_n.+1 := if U is Some U' then U' else 0.
Lemma cgg_act R U m : good m ->
  exists m', [/\ cgg_apply qone R U m = Ok m', good m' & forall k, coef m' k = act (optm R) (optu U) m k].
Proof.
move=> gm; have [m' [E gm']] := (@cgg_apply_lop F dim n Q qone Mom mom R U).1 m gm.
exists m'; split=> // k; move: E; rewrite /cgg_apply -/ko.
set oR := if R is Some R' then _ else _; set oU := if U is Some U' then _ else _.
have eR : optm R = optm oR by rewrite /oR; case: (R) => //= R'; case: eqP => //= ->.
have eU : optu U = optu oU by rewrite /oU; case: (U) => //= U'; case: eqP => //= ->.
rewrite eR eU /act; case: (gm) => w s mo.
have c0 : forall k, coef (zeros_like mat m) k = 0 by [].
set r := (if oR is Some R' then _ else _).
case er: r => [r'|] //=.
have {}er : coef r' k = 'i *: (\sum_i \sum_j optm oR i j *: dterm m k i j).
  move: er; rewrite /r; case: (oR) => [R'|] /=; last first.
    by case=> <-; rewrite c0 big1 ?scaler0 // => i _; rewrite big1 // => j _; rewrite mxE scale0r.
  have [t [Et wt mt et]] := transform_props ko (fun x => (x == k)%:R) (kder R') s.
  rewrite Et /= => /(madd_coef k) ->; rewrite c0 add0r coef_scale (coefE k wt) et; congr (_ *: _).
  rewrite (eq_bigr (fun kv => (\sum_i \sum_j R' i j * dcoef k i j (den ko kv.1)) *: kv.2)); last first.
    by move=> kv _; rewrite -scaler_suml kder_coef.
  rewrite (eq_bigr (fun kv => \sum_i \sum_j R' i j *: (dcoef k i j (den ko kv.1) *: kv.2))); last first.
    move=> kv _; rewrite scaler_suml; apply: eq_bigr => i _; rewrite scaler_suml; apply: eq_bigr => j _.
    by rewrite scalerA.
  rewrite exchange_big; apply: eq_bigr => i _; rewrite exchange_big; apply: eq_bigr => j _.
  by rewrite /dterm /meval scaler_sumr.
case: (oU) => [U'|] /=; last by case=> <-; rewrite er mulmx0 mul0mx subrr scaler0 addr0.
case ec: (madd _ _ _) => [c|] //= /(madd_coef k) ->; rewrite er (madd_coef k ec); congr (_ + _).
rewrite (@coef_mmap n (fun A : mat => A *m ('i *: U') : mat)) ?mul0mx //.
rewrite (@coef_mmap n (fun A : mat => (- 'i *: U') *m A : mat)) ?mulmx0 //.
by rewrite -scalemxAl -scalemxAr scaleNr scalerBr.
Qed.

Lemma actD R R' U U' m k : act (R + R') (U + U') m k = act R U m k + act R' U' m k.
Proof.
rewrite /act addrACA -!scalerDr; congr (_ *: (_ + _)).
  rewrite -big_split; apply: eq_bigr => i _ /=; rewrite -big_split; apply: eq_bigr => j _ /=.
  by rewrite mxE scalerDl.
by rewrite mulmxDl mulmxDr opprD addrACA.
Qed.
Lemma actZ z R U m k : act (z *: R) (z *: U) m k = z *: act R U m k.
Proof.
rewrite /act [RHS]scalerDr [z *: ('i *: _)]scalerA [z *: ('i *: (_ - _))]scalerA ![z * 'i]mulrC -!scalerA; congr (_ *: _ + _ *: _).
  rewrite scaler_sumr; apply: eq_bigr => i _; rewrite scaler_sumr; apply: eq_bigr => j _.
  by rewrite mxE scalerA.
by rewrite scalerBr -scalemxAr -scalemxAl.
Qed.
Lemma act0 m k : act 0 0 m k = 0.
Proof. by rewrite -[X in act X](scale0r (0 : 'M[C]_dim)) -[X in act _ X](scale0r (0 : 'M[C]_n.+1)) actZ scale0r. Qed.
Lemma act_sum (I : Type) (r : seq I) (c : I -> C) R U m k :
  act (\sum_(i <- r) c i *: R i) (\sum_(i <- r) c i *: U i) m k = \sum_(i <- r) c i *: act (R i) (U i) m k.
Proof.
elim: r => [|i r IH]; first by rewrite !big_nil act0.
by rewrite !big_cons actD actZ IH.
Qed.
Lemma actS R U m k : act R U m k = act R 0 m k + act 0 U m k.
Proof. by rewrite -actD addr0 add0r. Qed.

(* the derivative is a combination of the coefficients of the model *)
Lemma dterm_comb m k i j : wf_model ko m ->
  exists2 ks : seq key, {subset ks <= dkeys ko (mdata m)} & exists c : key -> C, dterm m k i j = \sum_(x <- ks) c x *: coef m x.
Proof.
move=> w; exists (dkeys ko (mdata m)) => //; exists (dcoef k i j).
by rewrite /dterm mevalE (deval_keys _ w (ks := dkeys ko (mdata m))).
Qed.
End Act.

(* ---- rows and combinations ---- *)
Section Rows.
Variable F : rcfType.
Lemma seq_dot M (s : seq F) (v : 'rV[F]_M) : (size s <= M)%N ->
  \sum_(c < M) s`_c * v 0 c = \sum_(c < size s) s`_c * rowf v c.
Proof.
move=> le; rewrite (eq_bigr (fun c : 'I_M => s`_c * rowf v c)) => [|c _]; last by rewrite rowfE.
rewrite -!(big_mkord xpredT (fun c => s`_c * rowf v c)) (big_cat_nat _ _ _ (leq0n _) le) /=.
rewrite [X in _ + X]big_nat_cond [X in _ + X]big1 ?addr0 // => c /andP[/andP[h _] _].
by rewrite nth_default ?mul0r.
Qed.
Lemma cat_dot (s t : seq F) (g : nat -> F) :
  \sum_(c < size (s ++ t)) (s ++ t)`_c * g c =
  \sum_(c < size s) s`_c * g c + \sum_(c < size t) t`_c * g (size s + c)%N.
Proof.
elim: s g => [|x s IH] g /=; first by rewrite big_ord0 add0r.
by rewrite !big_ord_recl /= (IH (fun c => g c.+1)) addrA.
Qed.
Lemma nseq0_dot m (g : nat -> F) : \sum_(c < size (nseq m (0 : F))) (nseq m 0)`_c * g c = 0.
Proof. by apply: big1 => c _; rewrite nth_nseq if_same mul0r. Qed.
Lemma enum_dot M (r : 'rV[F]_M) (g : nat -> F) :
  \sum_(c < size [seq r 0 j | j <- enum 'I_M]) [seq r 0 j | j <- enum 'I_M]`_c * g c = \sum_(j < M) r 0 j * g j.
Proof.
rewrite -(big_mkord xpredT (fun c => [seq r 0 j | j <- enum 'I_M]`_c * g c)) size_map size_enum_ord big_mkord.
by apply: eq_bigr => j _; rewrite (nth_map j) ?size_enum_ord // nth_ord_enum.
Qed.
End Rows.

Lemma locate k (f : 'I_k -> nat) j : (j < \sum_i f i)%N ->
  exists i t, (t < f i)%N /\ j = (\sum_(s < k | (s < i)%N) f s + t)%N.
Proof.
elim: k f j => [|k IH] f j; first by rewrite big_ord0.
rewrite big_ord_recl; case: (ltnP j (f ord0)) => [h _|h h'].
  by exists ord0, j; split=> //; rewrite big1.
have /IH [i [t [ht E]]] : (j - f ord0 < \sum_(i < k) f (lift ord0 i))%N by rewrite ltn_subLR.
exists (lift ord0 i), t; split=> //.
by rewrite big_mkcond big_ord_recl /= -big_mkcond /= -addnA -E subnKC.
Qed.

Section Combs.
Variables (K C : fieldType) (e : {rmorphism K -> C}) (V : lmodType C).
Lemma comb_flatten (ss : seq (seq V)) c :
  comb e (flatten ss) c = \sum_(i < size ss) comb e (nth [::] ss i) (fun j => c (\sum_(t < size ss | (t < i)%N) size (nth [::] ss t) + j)%N).
Proof.
elim: ss c => [|s ss IH] c /=; first by rewrite comb_nil big_ord0.
rewrite comb_cat IH big_ord_recl /=; congr (_ + _).
  by apply: eq_comb => j _; rewrite big1.
apply: eq_bigr => i _; rewrite /=; apply: eq_comb => j _; congr c; rewrite addnA; congr addn.
by rewrite [RHS]big_mkcond big_ord_recl /= -big_mkcond.
Qed.
Lemma comb_enum k (f : 'I_k -> seq V) c :
  comb e (flatten [seq f i | i <- enum 'I_k]) c = \sum_i comb e (f i) (fun j => c (\sum_(t < k | (t < i)%N) size (f t) + j)%N).
Proof.
rewrite comb_flatten; set ss := map _ _.
have sz : size ss = k by rewrite size_map size_enum_ord.
have nE (i : 'I_k) : nth [::] ss i = f i by rewrite (nth_map i) ?size_enum_ord // nth_ord_enum.
transitivity (\sum_(i < k) comb e (nth [::] ss i) (fun j => c (\sum_(t < k | (t < i)%N) size (nth [::] ss t) + j)%N)).
  by move: sz; case: _ /.
apply: eq_bigr => i _; rewrite nE; apply: eq_comb => j _; congr (c (_ + _)%N).
by apply: eq_bigr => t _; rewrite nE.
Qed.
Lemma compose_basis' N (X : seq V) (ns : seq 'rV[K]_N) (P Q : V -> Prop) :
  size X = N -> is_basis e X P ->
  is_basis [rmorphism of idfun] ns (fun v => Q (combr e X v)) ->
  is_basis e [seq combr e X v | v <- ns] (fun x => P x /\ Q x).
Proof. by move=> E; subst N; apply: compose_basis. Qed.
End Combs.

Section Main.
Variables (F : rcfType) (dim : nat) (Q : eqType) (qone : Q) (Mom : eqType) (mom : Mom).
Local Notation C := F[i].
Local Notation key := [eqType of Keys.key F dim Q].
Local Notation kmodel n := (model key Mom [lmodType C of 'M[C]_n.+1]).
Local Notation rc := [rmorphism of real_complex F].
Let ko : key := kone F dim qone.
Local Notation coef m k := (dget ko (mdata m) (Sym k)).
Variable ns : forall M : nat, seq 'rV[F]_M -> seq 'rV[F]_M.
Variables (N k : nat) (n d : 'I_k -> nat) (P : forall i : 'I_k, nat -> 'M[C]_(N.+1, (n i).+1)).
Variable H : kmodel N.
Hypotheses (gH : FamilyProofs.good ko mom H) (dim2 : (1 < dim)%N).
Local Notation Rs := (Rs F dim).
Local Notation Ls := (@Ls F k n).
Local Notation NR := (NR dim).
Local Notation NL := (NL n).
Local Notation blockind := (blockind dim n).
Local Notation ncols := (ncols dim n).
Local Notation rham := (rham P H).
Local Notation spatial_part := (@spatial_part F dim k n).
Local Notation block_part := (@block_part F dim k n).

Lemma size_Rs : size Rs = NR.
Proof.
have -> : size Rs = size (combinations2 dim).
  rewrite /ContSym.Rs /matrix_basis /=; elim: (combinations2 dim) => //= p l ->.
  by [].
have := size_combinations2 dim; set x := size _; rewrite /ContSym.NR expnS expn1.
have -> : (dim * dim = dim * dim.-1 + dim)%N by rewrite -mulnSr prednK // ltnW.
move=> E; have -> : (dim * dim.-1 = x.*2)%N by move: E; rewrite -mul2n; lia.
by rewrite doubleK.
Qed.
Lemma Rs_pos : (0 < size Rs)%N.
Proof. by rewrite size_Rs /ContSym.NR; case: (dim) dim2 => [|[|m]] // _; rewrite half_gt0 /= mulSn; lia. Qed.
Lemma size_Ls i : size (Ls i) = NL i.
Proof. by rewrite /ContSym.Ls size_matrix_basis. Qed.
Lemma Ls_pos i : (0 < n i)%N -> (0 < size (Ls i))%N.
Proof. by rewrite size_Ls /ContSym.NL expnS expn1 => h; rewrite subn_gt0; nia. Qed.
Lemma blockind_le i : (blockind i + NL i <= ncols)%N.
Proof.
rewrite /ContSym.blockind /ContSym.ncols -addnA leq_add2l [in X in (_ <= X)%N](bigID (fun j : 'I_k => (j < i)%N)) /= leq_add2l.
by rewrite (bigD1 i) ?ltnn //= leq_addr.
Qed.

Lemma constraint_dot i r l (v : 'rV[F]_ncols) :
  \sum_c (constraint_row (i := i) r l) 0 c * v 0 c =
  \sum_(j < size Rs) r 0 j * rowf v j + \sum_(j < size (Ls i)) l 0 j * rowf v (blockind i + j)%N.
Proof.
have sm M (w : 'rV[F]_M) : size [seq w 0 j | j <- enum 'I_M] = M by rewrite size_map size_enum_ord.
under eq_bigr => c _ do rewrite mxE.
rewrite seq_dot; last first.
  rewrite size_cat (size_cat (nseq _ _)) size_nseq !sm size_Rs size_Ls addnA subnKC ?blockind_le //.
  exact: leq_addr.
rewrite (cat_dot _ _ (rowf v)) (cat_dot _ _ (fun c => rowf v (_ + c)%N)) (nseq0_dot _ (fun c => rowf v (_ + c)%N)) add0r.
rewrite (enum_dot r (rowf v)) (enum_dot l (fun c => rowf v (_ + (_ + c))%N)); congr (_ + _); apply: eq_bigr => j _.
congr (_ * rowf _ _); rewrite addnA size_nseq sm size_Rs subnKC //; exact: leq_addr.
Qed.

Lemma good_rham i : FamilyProofs.good ko mom (rham i).
Proof. by case: gH => w s mo; split; rewrite ?mmap_wf ?mmap_sym. Qed.

(* transformed families *)
Lemma trf_family (T : Type) n' (m : kmodel n') (Rf : T -> option 'M[C]_dim) (Uf : T -> option 'M[C]_n'.+1) (s : seq T) x0 :
  FamilyProofs.good ko mom m ->
  exists trf, [/\ mapM (fun t => cgg_apply qone (Rf t) (Uf t) m) s = Ok trf, size trf = size s,
    forall y, List.In y trf -> exists2 t, List.In t s & cgg_apply qone (Rf t) (Uf t) m = Ok y &
    forall c x, fcoef ko trf c x = \sum_(j < size s) (c j)%:C *: act qone (optm (Rf (nth x0 s j))) (optu (Uf (nth x0 s j))) m x].
Proof.
move=> gm.
have [trf E] : exists trf, mapM (fun t => cgg_apply qone (Rf t) (Uf t) m) s = Ok trf.
  by apply: mapM_total => t _; have [m' [-> _ _]] := cgg_act (Rf t) (Uf t) gm; exists m'.
have [sz h] := mapM_ok E; exists trf; split=> // [y|c x]; first by apply: mapM_In E.
rewrite /FamilyProofs.fcoef sz; apply: eq_bigr => j _; congr (_ *: _).
have [m' [e _ <-]] := cgg_act (Rf (nth x0 s j)) (Uf (nth x0 s j)) gm.
rewrite (nth_map m') ?sz //; have := h x0 m' j (ltn_ord j); rewrite e => -[<-] //.
Qed.

Lemma madd_keys n' (a b c : kmodel n') x : madd ko a b = Ok c ->
  x \in dkeys ko (mdata c) -> x \in dkeys ko (mdata a) ++ dkeys ko (mdata b).
Proof. by move=> E xc; apply: dkeys_madd'; rewrite /madd' E. Qed.
Lemma keys_cggU n' (m y : kmodel n') U x : cgg_apply qone None U m = Ok y ->
  x \in dkeys ko (mdata y) -> x \in dkeys ko (mdata m).
Proof.
rewrite /cgg_apply /= -/ko; case: U => [U|] /=; last by case=> <-.
case: eqP => [_ [<-] //|_]; case e: (madd _ _ _) => [c|] //= /madd_keys h /h /=.
move/(madd_keys e); rewrite mem_cat /dkeys /= -!map_comp.
by case/orP.
Qed.

Lemma block_rows_ok i : (0 < n i)%N ->
  exists2 rows, block_rows qone P H i = Ok rows &
    forall v : 'rV[F]_ncols, (forall r, List.In r rows -> \sum_c r 0 c * v 0 c = 0) <->
              (forall x, act qone (spatial_part v) (block_part v i) (rham i) x = 0).
Proof.
move=> ni; rewrite /block_rows.
have [trf [E1 s1 _ f1]] := trf_family (fun R => Some ('i *: R)) (fun=> None) Rs 0 (good_rham i).
rewrite E1 /= -/ko; set keys := undup _.
have cv : covered ko keys trf.
  apply/allIn => m mt; apply/allP => x xm; rewrite mem_undup mem_cat; apply/orP; right.
  by have /allIn/(_ m mt)/allP := covered_keys ko trf; apply.
rewrite f2v_total //=; last by left; rewrite s1 Rs_pos.
have [trf' [E2 s2 in2 f2]] := trf_family (fun=> None) (fun L => Some L) (Ls i) 0 (good_rham i).
have cv' : covered ko keys trf'.
  apply/allIn => m /in2 [t _ et]; apply/allP => x xm; rewrite mem_undup mem_cat; apply/orP; left.
  exact: keys_cggU et xm.
rewrite E2 /= f2v_total //=; last by left; rewrite s2 Ls_pos.
eexists; first reflexivity.
move=> v; rewrite !transposeE ?Rs_pos ?Ls_pos // zip_map -map_comp.
set cL := fun j => rowf v (blockind i + j)%N.
have aE x : act qone (spatial_part v) (block_part v i) (rham i) x = fcoef ko trf (rowf v) x + fcoef ko trf' cL x.
  rewrite actS f1 f2 /spatial_part /block_part; congr (_ + _).
    have {1}-> : (0 : 'M[C]_((n i).+1)) = \sum_(j < size Rs) (rowf v j)%:C *: 0 by rewrite big1 // => j _; rewrite scaler0.
    by rewrite act_sum.
  have {1}-> : (0 : 'M[C]_dim) = \sum_(j < size (Ls i)) (cL j)%:C *: 0 by rewrite big1 // => j _; rewrite scaler0.
  by rewrite act_sum.
have E (A B : key -> 'M[C]_((n i).+1)) x : FamilyProofs.entry A x + FamilyProofs.entry B x = FamilyProofs.entry (fun k => A k + B k) x.
  by rewrite /FamilyProofs.entry !mxE /part; case: (x.1.1.2); case: (A _ _ _) (B _ _ _) => [? ?] [].
have D x : \sum_c constraint_row (i := i) (\row_(j < size Rs) ventry ko trf x j) (\row_(j < size (Ls i)) ventry ko trf' x j) 0 c * v 0 c =
   FamilyProofs.entry (fun k => fcoef ko trf (rowf v) k + fcoef ko trf' cL k) x.
  rewrite constraint_dot -E !ventry_comb s1 s2; congr (_ + _); apply: eq_bigr => j _; by rewrite mxE mulrC.
transitivity (forall x, fcoef ko trf (rowf v) x + fcoef ko trf' cL x = 0); last by split=> h x; have := h x; rewrite aE.
rewrite -(entry0P (keys := keys)); last by move=> x nx; rewrite !(fcoef_notin _ _ nx) // addr0.
split=> [h x xs|h r /In_map_iff [x /In_mem xs ->]]; last by rewrite /= D h.
by rewrite -D; apply: h; apply/In_map_iff; exists x => //; apply/In_mem.
Qed.

(* ---- the reduction to blocks ---- *)
Hypotheses (orth : orthonormal d P) (compl : complete d P) (dpos : forall i, (0 < d i)%N).
Hypothesis bd : forall x, block_diagonal d P (coef H x).

Definition embl (l : forall i, 'M[C]_((n i).+1)) : 'M[C]_N.+1 :=
  \sum_i \sum_(0 <= a < d i) P i a *m l i *m dag (P i a).
Lemma embl_bd l : block_diagonal d P (embl l). Proof. by exists l. Qed.
Lemma bdD A B : block_diagonal d P A -> block_diagonal d P B -> block_diagonal d P (A + B).
Proof.
case=> a -> [b ->]; exists (fun i => a i + b i); rewrite -big_split; apply: eq_bigr => i _.
by rewrite -big_split; apply: eq_bigr => j _ /=; rewrite mulmxDr mulmxDl.
Qed.
Lemma bdZ z A : block_diagonal d P A -> block_diagonal d P (z *: A).
Proof.
case=> a ->; exists (fun i => z *: a i); rewrite scaler_sumr; apply: eq_bigr => i _; rewrite scaler_sumr; apply: eq_bigr => j _.
by rewrite -scalemxAr -scalemxAl.
Qed.
Lemma bd0 : block_diagonal d P 0.
Proof. by exists (fun=> 0); rewrite big1 // => i _; rewrite big1 // => a _; rewrite mulmx0 mul0mx. Qed.
Lemma bd_sum (I : Type) (r : seq I) (A : I -> 'M[C]_N.+1) : (forall i, block_diagonal d P (A i)) -> block_diagonal d P (\sum_(i <- r) A i).
Proof. by move=> h; elim/big_ind: _ => // [|A1 A2]; [exact: bd0|exact: bdD]. Qed.
Lemma bd_reduced A i a : block_diagonal d P A -> (a < d i)%N ->
  A *m P i a = P i a *m (dag (P i 0) *m A *m P i 0) /\ dag (P i a) *m A = (dag (P i 0) *m A *m P i 0) *m dag (P i a).
Proof. by move=> h ha; apply: (block_R orth dpos h ha). Qed.
Lemma bd_mul A B : block_diagonal d P A -> block_diagonal d P B -> block_diagonal d P (A *m B).
Proof.
move=> hA [b ->]; exists (fun i => (dag (P i 0) *m A *m P i 0) *m b i); rewrite mulmx_sumr; apply: eq_bigr => i _.
rewrite mulmx_sumr; apply: eq_big_nat => a /andP[_ ha]; have [E _] := bd_reduced hA ha.
by rewrite !mulmxA E !mulmxA.
Qed.
Lemma bd_zero A : block_diagonal d P A -> (forall i, dag (P i 0) *m A *m P i 0 = 0) -> A = 0.
Proof.
move=> hA h; rewrite -[A]mulmx1 -compl mulmx_sumr big1 // => i _; rewrite mulmx_sumr big_nat_cond big1 // => a /andP[/andP[_ ha] _].
by have [E _] := bd_reduced hA ha; rewrite mulmxA E h mulmx0 mul0mx.
Qed.
Lemma embl_reduced l i : dag (P i 0) *m embl l *m P i 0 = l i.
Proof.
rewrite mulmx_sumr (bigD1 i) //= [X in _ + X]big1 ?addr0 => [|j ji]; last first.
  rewrite mulmx_sumr big_nat_cond big1 // => a /andP[/andP[_ ha] _].
  by rewrite !mulmxA orth.2 // 1?eq_sym // !mul0mx.
rewrite mulmx_sumr big_ltn // big_nat_cond big1 => [|a /andP[/andP[a0 ha] _]]; last first.
  by rewrite !mulmxA orth.1 // -[X in (X == _)]/(0%N) (ltn_eqF a0) raddf0 !mul0mx.
by rewrite addr0 !mulmxA orth.1 // mul1mx -mulmxA orth.1 // mulmx1.
Qed.

Lemma bd_dterm x i j : block_diagonal d P (dterm qone H x i j).
Proof.
case: gH => w _ _; have [ks _ [c ->]] := dterm_comb x i j w.
by apply: bd_sum => y; apply: bdZ; apply: bd.
Qed.
Lemma bd_act R L x : block_diagonal d P L -> block_diagonal d P (act qone R L H x).
Proof.
move=> hL; apply: bdD; apply: bdZ.
  by apply: bd_sum => i; apply: bd_sum => j; apply: bdZ; apply: bd_dterm.
by rewrite -scaleN1r; apply: bdD; [|apply: bdZ]; apply: bd_mul.
Qed.

Lemma coef_rham i x : coef (rham i) x = dag (P i 0) *m coef H x *m P i 0 :> 'M[C]_((n i).+1).
Proof.
rewrite /ContSym.rham (@coef_mmap F dim Q qone Mom N (n i) (fun A : [lmodType C of 'M[C]_N.+1] => dag (P i 0) *m A *m P i 0 : [lmodType C of 'M[C]_((n i).+1)])) //.
by rewrite mulmx0 mul0mx.
Qed.
Lemma dterm_rham i x a b : dterm qone (rham i) x a b = dag (P i 0) *m dterm qone H x a b *m P i 0.
Proof.
rewrite /dterm /ContSym.rham (@eval_mmap _ _ _ _ _ _ (fun A : [lmodType C of 'M[C]_N.+1] => dag (P i 0) *m A *m P i 0 : [lmodType C of 'M[C]_((n i).+1)])) //.
  by move=> u v; rewrite mulmxDr mulmxDl.
by move=> z u; rewrite -scalemxAr -scalemxAl.
Qed.
Lemma act_rham i R L x :
  act qone R (dag (P i 0) *m L *m P i 0) (rham i) x = dag (P i 0) *m act qone R L H x *m P i 0.
Proof.
rewrite /act mulmxDr mulmxDl -!scalemxAr -!scalemxAl; congr (_ *: _ + _ *: _).
  rewrite mulmx_sumr mulmx_suml; apply: eq_bigr => a _; rewrite mulmx_sumr mulmx_suml; apply: eq_bigr => b _.
  by rewrite dterm_rham -scalemxAr -scalemxAl.
rewrite coef_rham mulmxBr mulmxBl; have [E1 E2] := bd_reduced (bd x) (dpos i).
congr (_ - _).
  by rewrite [dag _ *m (coef H x *m L)]mulmxA [in RHS]E2 !mulmxA.
by rewrite -[RHS]mulmxA -(mulmxA L) E1 !mulmxA.
Qed.

(* a generator in block form is a symmetry exactly if it is one of every reduced model *)
Lemma act_blocks R l x : act qone R (embl l) H x = 0 <-> forall i, act qone R (l i) (rham i) x = 0.
Proof.
split=> [h i|h]; first by rewrite -(embl_reduced l i) act_rham h mulmx0 mul0mx.
apply: bd_zero (bd_act _ _ (embl_bd l)) _ => i; rewrite -act_rham embl_reduced; exact: h.
Qed.

(* ---- the space of candidates ---- *)
Local Notation V := [lmodType C of ('M[C]_dim * 'M[C]_N.+1)%type].
Definition embi i (l : 'M[C]_((n i).+1)) : 'M[C]_N.+1 := \sum_(0 <= a < d i) P i a *m l *m dag (P i a).
Lemma embi0 i : embi (0 : 'M[C]_((n i).+1)) = 0.
Proof. by apply: big1 => a _; rewrite mulmx0 mul0mx. Qed.
Lemma embiD i (l l' : 'M[C]_((n i).+1)) : embi (l + l') = embi l + embi l'.
Proof. by rewrite -big_split; apply: eq_bigr => a _ /=; rewrite mulmxDr mulmxDl. Qed.
Lemma embiZ i z (l : 'M[C]_((n i).+1)) : embi (z *: l) = z *: embi l.
Proof. by rewrite scaler_sumr; apply: eq_bigr => a _; rewrite -scalemxAr -scalemxAl. Qed.

Definition gens : seq V :=
  [seq ('i *: R, 0) : V | R <- Rs] ++ flatten [seq [seq (0, embi l) : V | l <- Ls i] | i <- enum 'I_k].
Lemma size_gens : size gens = ncols.
Proof.
rewrite size_cat size_map size_Rs; congr addn; rewrite size_flatten /shape -map_comp sumnE big_map big_enum /=.
by apply: eq_bigr => i _; rewrite size_map size_Ls.
Qed.
Lemma comb_gens (c : nat -> F) :
  comb rc gens c = ('i *: comb rc Rs c, embl (fun i => comb rc (Ls i) (fun j => c (blockind i + j)%N))) :> V.
Proof.
rewrite comb_cat comb_enum size_map size_Rs.
rewrite (@comb_map _ _ rc _ V (fun R : 'M[C]_dim => ('i *: R, 0) : V)); first last.
- by move=> a R; congr pair; rewrite ?scaler0 // !scalerA mulrC.
- by move=> R R'; congr pair; rewrite ?addr0 // scalerDr.
- by rewrite scaler0.
have E i : comb rc [seq (0, embi l) : V | l <- Ls i] (fun j => c (NR + (\sum_(t < k | (t < i)%N) size [seq (0%R, embi l) : V | l <- Ls t] + j))%N)
   = (0, embi (comb rc (Ls i) (fun j => c (blockind i + j)%N))) :> V.
  rewrite (@comb_map _ _ rc _ V (fun l : 'M[C]_((n i).+1) => (0, embi l) : V)); first last.
  - by move=> a l; congr pair; rewrite ?scaler0 // embiZ.
  - by move=> l l'; congr pair; rewrite ?addr0 // embiD.
  - by rewrite embi0.
  congr (_, embi _); apply: eq_comb => j _; congr c; rewrite addnA; congr (_ + _ + _)%N.
  by apply: eq_bigr => t _; rewrite size_map size_Ls.
rewrite (eq_bigr _ (fun i _ => E i)).
have S (f : 'I_k -> 'M[C]_N.+1) : \sum_i ((0, f i) : V) = (0, \sum_i f i).
  by rewrite [LHS]surjective_pairing; congr pair; rewrite (raddf_sum [additive of snd]) || rewrite (raddf_sum [additive of fst]) /= ?big1.
by rewrite S; congr pair; rewrite /= ?addr0 ?add0r.
Qed.

(* R is i times a real antisymmetric matrix; L acts in the same way on all copies of a block,
   by a traceless hermitian matrix *)
Definition rotation_generator (R : 'M[C]_dim) : Prop := dagger R = R /\ forall a b, complex.Re (R a b) = 0.
Definition block_generator (L : 'M[C]_N.+1) : Prop :=
  exists l : forall i, 'M[C]_((n i).+1), (forall i, dagger (l i) = l i /\ \tr (l i) = 0) /\ L = embl l.
(* the action on the model is defined and gives zero *)
Definition annihilates (g : V) : Prop :=
  exists2 m', cgg_apply qone (Some g.1) (Some g.2) H = Ok m' & forall x, coef m' x = 0.

Lemma annihilatesP (g : V) : annihilates g <-> forall x, act qone g.1 g.2 H x = 0.
Proof.
have [m' [E _ h]] := cgg_act (Some g.1) (Some g.2) gH; rewrite /annihilates E.
by split=> [[_ [<-]] h0 x|h0]; [rewrite -h|exists m' => // x; rewrite h].
Qed.

Lemma imag_i (z : C) : complex.Im (- 'i * z) = - complex.Re z.
Proof. by case: z => a b; rewrite /= mulN1r oppr0 mul0r add0r. Qed.
Lemma rotation_basis : is_basis rc [seq 'i *: R | R <- Rs] rotation_generator.
Proof.
have i0 : ('i : C) != 0 by rewrite eq_complex /= oner_eq0 andbF.
have ii : ('i : C)^-1 = - 'i by apply: (mulfI i0); rewrite divff //; simpc.
have nn : (- 'i : C)^* = 'i by simpc.
apply: eq_basis (scale_basis i0 (C23_matrix_basis F dim false true true)) => R; rewrite ii.
split=> [[h1 /(_ erefl) h2 _]|[h1 h2]].
  split=> [|a b].
    by move: h1; rewrite daggerZ nn scaleNr opprK => /(scalerI i0).
  by have := h2 a b; rewrite mxE imag_i => /eqP; rewrite oppr_eq0 => /eqP.
split=> // [|_ a b]; first by rewrite daggerZ nn h1 scaleNr opprK.
by rewrite mxE imag_i h2 oppr0.
Qed.

Lemma gens_basis : is_basis rc gens (fun g : V => rotation_generator g.1 /\ block_generator g.2).
Proof.
have [RI RS] := rotation_basis.
have cR c : comb rc [seq 'i *: R | R <- Rs] c = 'i *: comb rc Rs c.
  apply: (@comb_map _ _ rc _ _ (fun R : 'M[C]_dim => 'i *: R)) => [|R R'|a R]; rewrite ?scaler0 ?scalerDr //.
  by rewrite !scalerA mulrC.
have LB i := C23_matrix_basis F (n i).+1 true false false.
split=> [c|g].
  rewrite comb_gens => -[E1 E2] j; rewrite size_gens.
  have r0 t : (t < NR)%N -> c t = 0.
    by move=> lt; apply: (RI c) => //; rewrite ?cR // size_map size_Rs.
  have l0 i t : (t < NL i)%N -> c (blockind i + t)%N = 0.
    move=> lt; apply: ((LB i).1 (fun t => c (blockind i + t)%N)); last by rewrite size_Ls.
    by rewrite -(embl_reduced (fun i => comb rc (Ls i) (fun t => c (blockind i + t)%N)) i) E2 mulmx0 mul0mx.
  case: (ltnP j NR) => [/r0 //|h]; rewrite /ContSym.ncols => h'.
  have /locate [i [t [ht E]]] : (j - NR < \sum_i NL i)%N by rewrite ltn_subLR.
  by have := l0 i t ht; rewrite /ContSym.blockind -addnA -E subnKC.
split=> [[/RS [cr Er] [l [hl El]]]|[c ->]].
  have -> : g = ((g.1, 0) : V) + \sum_i ((0, embi (l i)) : V).
    case: (g) El => R L /= ->; rewrite [RHS]surjective_pairing; congr pair.
      by rewrite /= (raddf_sum [additive of fst]) /= big1 ?addr0.
    by rewrite /= (raddf_sum [additive of snd]) /= add0r.
  apply: spanD.
    apply: (@span_sub _ _ rc V [seq ('i *: R, 0) : V | R <- Rs]) => [y hy|].
      by apply: span_mem; apply/In_cat; left.
    exists cr; rewrite Er cR (@comb_map _ _ rc _ V (fun R : 'M[C]_dim => ('i *: R, 0) : V)) //.
    - by rewrite scaler0.
    - by move=> R R'; congr pair; rewrite ?addr0 // scalerDr.
    - by move=> a R; congr pair; rewrite ?scaler0 // !scalerA mulrC.
  apply: span_sum => i _.
  apply: (@span_sub _ _ rc V [seq (0, embi l) : V | l <- Ls i]) => [y hy|].
    apply: span_mem; apply/In_cat; right; apply/In_flatten; exists [seq (0, embi l) : V | l <- Ls i] => //.
    by apply/In_map_iff; exists i => //; apply/In_mem; rewrite mem_enum.
  have /((LB i).2 (l i)) [c Ec] : [/\ dagger (l i) = l i, false -> forall a b, complex.Im (l i a b) = 0 & true -> \tr (l i) = 0].
    by have [h1 h2] := hl i.
  exists c; rewrite Ec (@comb_map _ _ rc _ V (fun l : 'M[C]_((n i).+1) => (0, embi l) : V)) //.
  - by rewrite embi0.
  - by move=> l1 l2; congr pair; rewrite ?addr0 // embiD.
  - by move=> a l1; congr pair; rewrite ?scaler0 // embiZ.
rewrite comb_gens /=; split; first by apply/RS; exists c; rewrite cR.
exists (fun i => comb rc (Ls i) (fun t => c (blockind i + t)%N)); split=> // i.
have [h1 _ h2] : [/\ dagger (comb rc (Ls i) (fun t => c (blockind i + t)%N)) = comb rc (Ls i) (fun t => c (blockind i + t)%N),
   false -> forall a b, complex.Im (comb rc (Ls i) (fun t => c (blockind i + t)%N) a b) = 0 &
   true -> \tr (comb rc (Ls i) (fun t => c (blockind i + t)%N)) = 0].
  by apply/((LB i).2 (comb rc (Ls i) (fun t => c (blockind i + t)%N))); exists (fun t => c (blockind i + t)%N).
by split=> //; apply: h2.
Qed.

Hypotheses (NS : exact_nullspace ns) (npos : forall i, (0 < n i)%N) (nonempty : ~~ nilp (mdata H)).
Local Notation continuous_symmetries := (continuous_symmetries qone ns d P H).
Local Notation generator := (generator qone d P H).

Lemma unitary_partE (v : 'rV[F]_ncols) : unitary_part d P v = embl (block_part v).
Proof. by apply: eq_bigr => i _; rewrite ltnS npos. Qed.
Lemma generatorE (v : 'rV[F]_ncols) : (forall i x, act qone (spatial_part v) (block_part v i) (rham i) x = 0) ->
  generator v = Ok (combr rc gens v).
Proof.
move=> h; rewrite /ContSym.generator.
have -> : combr rc gens v = (spatial_part v, unitary_part d P v) :> V.
  have -> : combr rc gens v = comb rc gens (rowf v).
    rewrite /combr /comb; move: v {h}; rewrite -size_gens => v.
    by apply: eq_bigr => j _; rewrite rowfE.
  rewrite comb_gens unitary_partE; congr pair.
  by rewrite scaler_sumr; apply: eq_bigr => j _; rewrite /= !scalerA mulrC.
have [m' [E [w _ _] e]] := cgg_act (Some (spatial_part v)) (Some (unitary_part d P v)) gH.
rewrite E /= (_ : all _ _ = true) //; apply/allIn => kv kvm; apply/eqP; rewrite -(dget_In w kvm).
rewrite (dget_den _ (k' := Sym (den ko kv.1))) // e /= unitary_partE; apply/act_blocks => i; exact: h.
Qed.

(* C94: the result is a basis of the symmetries of the documented form; no exception is raised *)
Theorem C94_basis : exists2 gs : seq V, continuous_symmetries = Ok gs &
  is_basis rc gs (fun g : V => (rotation_generator g.1 /\ block_generator g.2) /\ annihilates g).
Proof.
rewrite /ContSym.continuous_symmetries leqNgt dim2 /=.
case: ifP => [/hasP [i _] /nilP E|_]; first by case/negP: nonempty; apply/nilP/size0nil; rewrite -[LHS](size_map (fun kv => (kv.1, dag (P i 0) *m kv.2 *m P i 0))) E.
have [blocks Eb] : exists blocks, mapM (block_rows qone P H) (enum 'I_k) = Ok blocks.
  by apply: mapM_total => i _; have [rows -> _] := block_rows_ok (npos i); exists rows.
rewrite Eb /=; set A := flatten blocks.
have AE (v : 'rV[F]_ncols) : (forall r, List.In r A -> \sum_j r 0 j * v 0 j = 0) <->
    (forall i x, act qone (spatial_part v) (block_part v i) (rham i) x = 0).
  split=> [h i|h r /In_flatten [rows hr rr]].
    have hi : List.In i (enum 'I_k) by apply/In_mem; rewrite mem_enum.
    have [rows hr E] := mapM_In' Eb hi.
    have [rows' E' hv] := block_rows_ok (npos i); move: E' hv; rewrite E => -[<-] hv.
    by apply/hv => r rr; apply: h; apply/In_flatten; exists rows.
  have [i _ E] := mapM_In Eb hr; have [rows' E' hv] := block_rows_ok (npos i).
  by move: E' hv; rewrite E => -[<-] /(_ v) hv; move: r rr; apply/hv => x; apply: h.
have [_ NB] := NS A.
have gE v : List.In v (ns A) -> generator v = Ok (combr rc gens v).
  by move=> hv; apply: generatorE; apply/AE; apply/NB; apply: span_mem.
exists [seq combr rc gens v | v <- ns A].
  by elim: (ns A) gE => //= v l IH gE; rewrite gE /=; [rewrite IH // => u hu; apply: gE; right|left].
apply: compose_basis' size_gens gens_basis _; apply: eq_basis (NS A) => v; rewrite AE annihilatesP.
have -> : combr rc gens v = ('i *: comb rc Rs (rowf v), embl (block_part v)) :> V.
  rewrite -[RHS](comb_gens (rowf v)) /combr /comb; move: v; rewrite -size_gens => v.
  by apply: eq_bigr => j _; rewrite rowfE.
have -> : 'i *: comb rc Rs (rowf v) = spatial_part v.
  by rewrite scaler_sumr; apply: eq_bigr => j _; rewrite /= !scalerA mulrC.
by split=> h; [move=> x; apply/act_blocks => i|move=> i x; move: i; apply/act_blocks].
Qed.

(* every returned generator annihilates the Hamiltonian at every value of the symbols *)
Theorem C94_symmetry gs (pmul : Q -> Q -> Q) (pc : Q -> Q) (a : assignment F dim qone pmul pc) g :
  continuous_symmetries = Ok gs -> List.In g gs -> generator_action a (Some g.1) (Some g.2) H = 0.
Proof.
have [gs' -> [_ B]] := C94_basis; case=> <- hg.
have /B [_ [m' E h]] : span rc gs' g by apply: span_mem.
case: gH => w sy _; have [m'' [E' w' _ e]] := C50_apply_value pmul pc (Some g.1) (Some g.2) sy w.
have {}E' : m'' = m' by move: E'; rewrite E => -[].
subst m''; rewrite -e /ker mevalE (deval_keys _ w' (w' : uniq _) (ks := dkeys ko (mdata m'))) //.
by apply: big1 => x _; rewrite h scaler0.
Qed.

(* completeness: every symmetry (R, L) with hermitian L agrees with a combination of the returned
   generators up to an on-site conserved quantity *)
Theorem C94_complete gs R L : continuous_symmetries = Ok gs -> rotation_generator R -> dagger L = L -> annihilates (R, L) ->
  exists2 L', span rc gs ((R, L') : V) & forall x, (coef H x : 'M[C]_N.+1) *m (L - L') = (L - L') *m coef H x.
Proof.
have [gs' -> [_ B]] := C94_basis; case=> <- hR hL /annihilatesP /= h.
pose c i : C := \tr (dag (P i 0) *m L *m P i 0) / (n i).+1%:R.
pose l i : 'M[C]_((n i).+1) := dag (P i 0) *m L *m P i 0 - (c i)%:M.
have dagE m (A : 'M[C]_m) : dag A = dagger A by [].
have dagM m p q (A : 'M[C]_(m, p)) (B' : 'M[C]_(p, q)) : dag (A *m B') = dag B' *m dag A.
  by rewrite /dag /conjM trmx_mul map_mxM.
have dagK m p (A : 'M[C]_(m, p)) : dag (dag A) = A.
  by apply/matrixP => i j; rewrite !mxE conjcK.
have hl i : dagger (dag (P i 0) *m L *m P i 0) = dag (P i 0) *m L *m P i 0.
  by rewrite -dagE !dagM dagK (dagE _ L) hL mulmxA.
have a0 x : act qone R (embl l) H x = 0.
  apply/act_blocks => i; have -> : l i = dag (P i 0) *m L *m P i 0 + - (c i)%:M by [].
  rewrite -[R]addr0 actD act_rham h mulmx0 mul0mx add0r /act big1 => [|a _]; last first.
    by rewrite big1 // => b _; rewrite mxE scale0r.
  by rewrite scaler0 add0r mulmxN mulNmx scalar_mxC subrr scaler0.
exists (embl l).
  apply/B; split; last by apply/annihilatesP.
  split=> //; exists l; split=> // i; split.
    rewrite /l daggerD daggerN hl; congr (_ - _); rewrite -{1}scalemx1 daggerZ dagger1 scalemx1; congr (_%:M).
    have tr (A : 'M[C]_((n i).+1)) : (\tr A)^* = \tr (dagger A).
      by rewrite /mxtrace rmorph_sum; apply: eq_bigr => j _; rewrite !mxE.
    by rewrite /c (rmorphM (conjc_rmorphism F)) /= tr hl; congr (_ * _); rewrite conjc_inv rmorph_nat.
  by rewrite /l raddfB /= mxtrace_scalar /c -mulr_natr divfK ?subrr // pnatr_eq0.
move=> x; have : act qone 0 (L - embl l) H x = 0.
  have -> : (0 : 'M[C]_dim) = R + - R by rewrite subrr.
  by rewrite actD h add0r -[- R]scaleN1r -[- embl l]scaleN1r actZ a0 scaler0.
rewrite /act big1 ?scaler0 ?add0r => [|a _]; last by rewrite big1 // => b _; rewrite mxE scale0r.
move/eqP; rewrite scaler_eq0 => /orP [|]; last by rewrite subr_eq0 => /eqP.
by rewrite eq_complex /= oner_eq0 andbF.
Qed.
End Main.

(* ---- low dimensions and one-dimensional blocks ---- *)
Section Raises.
Variables (F : rcfType) (dim : nat) (Q : eqType) (qone : Q) (Mom : eqType) (mom : Mom).
Local Notation C := F[i].
Local Notation key := [eqType of Keys.key F dim Q].
Local Notation kmodel n := (model key Mom [lmodType C of 'M[C]_n.+1]).
Let ko : key := kone F dim qone.
Variable ns : forall M : nat, seq 'rV[F]_M -> seq 'rV[F]_M.
Variables (N k : nat) (n d : 'I_k -> nat) (P : forall i : 'I_k, nat -> 'M[C]_(N.+1, (n i).+1)).
Variable H : kmodel N.

Theorem C94_low_dimension : (dim <= 1)%N -> continuous_symmetries qone ns d P H = Ok [::].
Proof. by rewrite /continuous_symmetries => ->. Qed.

(* C95: one block of size 1 is enough for an exception *)
Theorem C95_one_dimensional_block i : FamilyProofs.good ko mom H -> (1 < dim)%N -> ~~ nilp (mdata H) -> n i = 0%N ->
  continuous_symmetries qone ns d P H = Err ValueError.
Proof.
move=> gH dim2 ne ni; rewrite /continuous_symmetries leqNgt dim2 /=.
have sz j : size (mdata (rham P H j)) = size (mdata H) by rewrite size_map.
case: ifP => [/hasP [j _]|_]; first by rewrite /nilp sz -/(nilp _) (negPf ne).
have B0 j : n j = 0%N -> block_rows qone P H j = Err ValueError.
  move=> nj; rewrite /block_rows.
  have [trf [E1 s1 _ _]] := trf_family (fun R => Some ('i *: R)) (fun=> None) (Rs F dim) 0 (good_rham P gH j).
  rewrite E1 /= -/ko; set keys := undup _.
  have cv : covered ko keys trf.
    apply/allIn => m mt; apply/allP => x xm; rewrite mem_undup mem_cat; apply/orP; right.
    by have /allIn/(_ m mt)/allP := covered_keys ko trf; apply.
  rewrite f2v_total //=; last by left; rewrite s1 Rs_pos.
  rewrite {1}(_ : Ls F n j = [::]); last by apply: size0nil; rewrite size_Ls /NL nj.
  rewrite /= /family_to_vectors /=; case: ifP => // /nilP k0; exfalso.
  have [x xk] : exists x, x \in dkeys ko (mdata (rham P H j)).
    move: ne (sz j); case: (mdata (rham P H j)) => [|kv l] h; last by exists (den ko kv.1); rewrite inE eqxx.
    by move/esym/size0nil/nilP; rewrite (negPf h).
  by have : x \in keys; [rewrite mem_undup mem_cat xk|rewrite k0].
have B j : block_rows qone P H j = Err ValueError \/ exists rows, block_rows qone P H j = Ok rows.
  case: (posnP (n j)) => [/B0|nj]; first by left.
  by right; have [rows E _] := block_rows_ok P gH dim2 nj; exists rows.
have : i \in enum 'I_k by rewrite mem_enum.
move=> hi; suff -> : mapM (block_rows qone P H) (enum 'I_k) = Err ValueError by [].
elim: (enum 'I_k) hi => //= j l IH; rewrite inE; case/orP=> [/eqP <-|/IH E]; first by rewrite B0.
by case: (B j) => [-> //|[rows ->]] /=; rewrite E.
Qed.
End Raises.

(* ---- examples ---- *)
Section Example.
Variable F : rcfType.
Local Notation C := F[i].
Local Notation key2 := [eqType of Keys.key F 2 unit_eqType].
Local Notation kmodel n := (model key2 unit_eqType [lmodType C of 'M[C]_n.+1]).
Let ko2 : key2 := kone F 2 (tt : unit_eqType).

(* one block: the identity as the only projector *)
Definition id_n (N : nat) (i : 'I_1) : nat := N.
Definition id_d (i : 'I_1) : nat := 1%N.
Definition id_P N (i : 'I_1) (a : nat) : 'M[C]_(N.+1, (id_n N i).+1) := 1%:M.
Lemma dag1 N : dag (1%:M : 'M[C]_N.+1) = 1%:M.
Proof. by rewrite /dag /conjM trmx1 map_mx1. Qed.
Lemma id_blocks N : [/\ orthonormal id_d (@id_P N), complete id_d (@id_P N), (forall i, (0 < id_d i)%N)
  & forall A, block_diagonal id_d (@id_P N) A].
Proof.
split=> // [||A].
- split=> [i [|a] [|b] // _ _|i j a b ij]; last by case/eqP: ij; rewrite !ord1.
  by rewrite /id_P dag1 mulmx1.
- by rewrite /complete big_ord_recl big_ord0 addr0 big_nat1 /id_P dag1 mulmx1.
- by exists (fun=> A); rewrite big_ord_recl big_ord0 addr0 big_nat1 /id_P dag1 mulmx1 mul1mx.
Qed.

(* H = sum_a k_a S_a *)
Section Linear.
Variables (N : nat) (S : 'I_2 -> 'M[C]_N.+1).
Definition lkey (a : 'I_2) : key2 := (pwe a, 0, tt).
Definition linear_model : kmodel N := Mk [seq (Sym (lkey a), S a : [lmodType C of 'M[C]_N.+1]) | a <- enum 'I_2] [::] tt.
Lemma lkey_inj : injective lkey.
Proof.
move=> a b [] /ffunP /(_ a); rewrite !ffunE eqxx; case: eqVneq => // ->.
Qed.
Lemma linear_good : FamilyProofs.good ko2 tt linear_model.
Proof.
split=> //; last by apply/allIn => kv /In_map_iff [a _ ->].
by rewrite /wf_model /wf_dict /dkeys /= -map_comp map_inj_uniq ?enum_uniq //; apply: lkey_inj.
Qed.
Lemma linear_act R U x : act (tt : unit_eqType) R U linear_model x =
  'i *: \sum_j (lkey j == x)%:R *: (\sum_a R a j *: S a + (S j *m U - U *m S j)).
Proof.
have mE ev : meval ko2 ev linear_model = \sum_a ev (lkey a) *: S a.
  by rewrite /meval big_map big_enum.
have cE : dget ko2 (mdata linear_model) (Sym x) = \sum_a (lkey a == x)%:R *: S a.
  by rewrite (coefE x (let: And3 w _ _ := linear_good in w)) mE.
rewrite /act cE -scalerDr; congr (_ *: _).
under [RHS]eq_bigr => j _ do rewrite scalerDr.
rewrite big_split /=; congr (_ + _); last first.
  rewrite mulmx_suml mulmx_sumr -sumrB; apply: eq_bigr => j _.
  by rewrite -scalemxAl -scalemxAr scalerBr.
rewrite exchange_big; apply: eq_bigr => j _; rewrite scaler_sumr; apply: eq_bigr => a _.
rewrite /dterm mE (bigD1 a) //= big1 ?addr0 => [|b ba].
  rewrite /dcoef /= ffunE eqxx mxE mulr0 mulr0 addr0 mulr1.
  have -> : ((pwadd (pwdec (pwe a) a) (pwe j), 0, tt) : key2) = lkey j.
    by congr (_, _, _); apply/ffunP => t; rewrite !ffunE; case: (t == a).
  by rewrite !scalerA mulrC.
rewrite /dcoef /= ffunE (_ : (a == b) = false); last by rewrite eq_sym (negPf ba).
by rewrite mxE !mulr0 addr0 scale0r.
Qed.
End Linear.

(* the Dirac Hamiltonian k_x sigma_x + k_y sigma_y and the generator of its rotations, sigma_z / 2 *)
Definition mx2 (a b c e : C) : 'M[C]_2 :=
  \matrix_(i, j) (if i == 0 then (if j == 0 then a else b) else (if j == 0 then c else e)).
Definition dirac : kmodel 1 := linear_model (fun a : 'I_2 => if a == 0 then mx2 0 1 1 0 else mx2 0 (- 'i) 'i 0).
Definition dirac_R : 'M[C]_2 := mx2 0 (- 'i) 'i 0.
Definition dirac_L : 'M[C]_2 := 2%:R^-1 *: mx2 1 0 0 (-1).
Lemma mx2E a b c e : forall i j, mx2 a b c e i j = if i == 0 then (if j == 0 then a else b) else (if j == 0 then c else e).
Proof. by move=> i j; rewrite mxE. Qed.
Lemma dirac_symmetric x : act (tt : unit_eqType) dirac_R dirac_L dirac x = 0.
Proof.
rewrite linear_act big1 ?scaler0 // => j _.
rewrite [X in _ *: X](_ : _ = 0) ?scaler0 // !big_ord_recl big_ord0 addr0.
have h : (2%:R^-1 : C) + 2%:R^-1 = 1 by rewrite -mulr2n -[_ *+ 2]mulr_natl divff // pnatr_eq0.
have ii : ('i : C) * 'i = -1 by simpc.
rewrite /dirac_L -!scalemxAr -!scalemxAl -scalerBr.
case: (altP (j =P 0)) => [->|j0]; [|have -> : j = 1 by case: j j0 => [[|[|]]] // *; apply: val_inj];
  apply/matrixP => a b; rewrite !mxE /= !big_ord_recl !big_ord0 !mxE /=;
  case: a => [[|[|[]]]] //= ?; case: b => [[|[|[]]]] //= ?.
all: rewrite ?(mul0r, mulr0, mul1r, mulr1, addr0, add0r, oppr0, mulN1r, mulrN1, opprK, subr0, sub0r, mulrN, mulNr, ii, subrr) //.
all: have s2 (z : C) : 2%:R^-1 * (z + z) = z by rewrite mulrDr -mulrDl h mul1r.
all: by rewrite s2 ?subrr ?addNr.
Qed.

Local Notation id_symmetries ns N H := (continuous_symmetries (tt : unit_eqType) ns id_d (@id_P N) H).
Local Notation rc := [rmorphism of real_complex F].
Example C94_example (ns : forall M : nat, seq 'rV[F]_M -> seq 'rV[F]_M) : exact_nullspace ns ->
  exists2 gs, id_symmetries ns 1 dirac = Ok gs &
    span rc gs ((dirac_R, dirac_L) : [lmodType C of ('M[C]_2 * 'M[C]_2)%type]).
Proof.
move=> NS; have [o c p b] := id_blocks 1; have g := linear_good (fun a : 'I_2 => if a == 0 then mx2 0 1 1 0 else mx2 0 (- 'i) 'i 0).
have ne : ~~ nilp (mdata dirac) by rewrite /nilp size_map size_enum_ord.
have [//|//|gs E [_ B]] := C94_basis g _ o c p (fun x => b _) NS _ ne; exists gs => //; apply/B; split; last first.
  by apply/(annihilatesP g) => x; apply: dirac_symmetric.
have h : (2%:R^-1 : C)^* = 2%:R^-1 by rewrite conjc_inv rmorph_nat.
split.
  split=> [|i j]; last by rewrite mxE; case: i => [[|[|[]]]] //= ?; case: j => [[|[|[]]]] //= ?; rewrite oppr0.
  apply/matrixP => i j; rewrite !mxE; case: i => [[|[|[]]]] //= ?; case: j => [[|[|[]]]] //= ?; rewrite ?rmorph0 //; by simpc.
exists (fun=> dirac_L); split=> [i|]; last by rewrite /embl big_ord_recl big_ord0 addr0 big_nat1 /id_P dag1 mulmx1 mul1mx.
split; last by rewrite mxtraceZ /mxtrace !big_ord_recl big_ord0 !mxE /= addr0 subrr mulr0.
rewrite daggerZ h; congr (_ *: _); apply/matrixP => a a'; rewrite !mxE; case: a => [[|[|[]]]] //= ?; case: a' => [[|[|[]]]] //= ?; by apply/eqP; rewrite eq_complex /= ?oppr0 ?opprK !eqxx.
Qed.

(* a single band k_x^2 + k_y^2 *)
Definition qkey (a : 'I_2) : key2 := (pwadd (pwe a) (pwe a), 0, tt).
Definition parabola : kmodel 0 := Mk [seq (Sym (qkey a), 1%:M : [lmodType C of 'M[C]_1]) | a <- enum 'I_2] [::] tt.
Lemma parabola_good : FamilyProofs.good ko2 tt parabola.
Proof.
split=> //; last by apply/allIn => kv /In_map_iff [a _ ->].
rewrite /wf_model /wf_dict /dkeys /= -map_comp map_inj_uniq ?enum_uniq // => a b [] /ffunP /(_ a).
by rewrite !ffunE eqxx; case: eqVneq.
Qed.
Lemma parabola_symmetric x : act (tt : unit_eqType) dirac_R 0 parabola x = 0.
Proof.
have mE ev : meval ko2 ev parabola = \sum_a ev (qkey a) *: 1%:M by rewrite /meval big_map big_enum.
rewrite /act mulmx0 mul0mx subrr scaler0 addr0.
pose s a j : key2 := (pwadd (pwe a) (pwe j), 0, tt).
have sC a j : s a j = s j a by congr (_, _, _); apply/ffunP => t; rewrite !ffunE addnC.
have dE a j : dterm (tt : unit_eqType) parabola x a j = ((s a j == x)%:R * 2%:R) *: 1%:M.
  rewrite /dterm mE (bigD1 a) //= big1 ?addr0 => [|b ba].
    rewrite /dcoef /= !ffunE eqxx mxE !mulr0 addr0; congr ((_ : bool)%:R * _ *: _); congr (_ == x); congr (_, _, _).
    by apply/ffunP => t; rewrite !ffunE; case: (t == a).
  rewrite /dcoef /= !ffunE (_ : (a == b) = false); last by rewrite eq_sym (negPf ba).
  by rewrite mxE !mulr0 addr0 scale0r.
rewrite !big_ord_recl !big_ord0 !dE !mxE /= !scale0r !add0r !addr0 sC scaleNr addNr scaler0 //.
Qed.
(* C95, refuted: there is a rotation symmetry, the blocks are correct, and an exception is raised *)
Theorem C95_single_band_refuted (ns : forall M : nat, seq 'rV[F]_M -> seq 'rV[F]_M) :
  [/\ FamilyProofs.good ko2 tt parabola, annihilates (tt : unit_eqType) parabola (dirac_R, 0), dirac_R != 0 &
      id_symmetries ns 0 parabola = Err ValueError].
Proof.
split; first exact: parabola_good.
- by apply/(annihilatesP parabola_good) => x; apply: parabola_symmetric.
- apply/eqP => /matrixP /(_ 1 0); rewrite !mxE /= => /eqP; by rewrite eq_complex /= oner_eq0 andbF.
apply: (@C95_one_dimensional_block _ _ _ _ _ tt _ _ _ _ _ _ _ 0) => //; first exact: parabola_good.
by rewrite /nilp size_map size_enum_ord.
Qed.
End Example.
Print Assumptions C94_basis.
Print Assumptions C95_single_band_refuted.
