(* C12-C14, C16-C19: algebra of Models, qsymm/model.py.  Statements are about the
   evaluation of a Model: the sum over its terms of (value of the symbolic key) *
   (matrix), at an arbitrary assignment [ev] of values to keys that respects
   products where products of keys are formed. *)
From mathcomp Require Import all_ssreflect all_algebra.
From mathcomp Require Import complex realalg.
From Verif Require Import Prelude ModelCore ModelProofs PGE PGEProofs.

Set Implicit Arguments.
Unset Strict Implicit.
Unset Printing Implicit Defensive.
Import GRing.Theory.
Local Open Scope ring_scope.

Section Linear.
Variables (K : eqType) (kone : K) (C : comRingType) (Mom : eqType) (V : lmodType C).
Implicit Types (a b m : model K Mom V).
Local Notation wf := (@wf_model K kone Mom V).
Local Notation eval := (meval kone).

Theorem C12_add a b : wf a -> wf b -> mmom a = mmom b ->
  exists c, [/\ madd kone a b = Ok c, wf c, mmom c = mmom a
    & forall ev : K -> C, eval ev c = eval ev a + eval ev b].
Proof.
move=> wa wb E; have [c H] := madd_ok kone E; exists c; split=> //.
- exact: madd_wf H.
- exact: madd_mom H.
- by move=> ev; apply: madd_eval H.
Qed.

Theorem C12_neg m : wf m ->
  wf (mneg m) /\ (forall ev : K -> C, eval ev (mneg m) = - eval ev m).
Proof. by move=> w; split=> [|ev]; rewrite ?mneg_wf // mneg_eval. Qed.

Theorem C12_sub a b : wf a -> wf b -> mmom a = mmom b ->
  exists c, [/\ msub kone a b = Ok c, wf c
    & forall ev : K -> C, eval ev c = eval ev a - eval ev b].
Proof.
move=> wa wb E; have wb' : wf (mneg b) by rewrite mneg_wf.
have [c [H1 H2 H3 H4]] := C12_add wa wb' E.
by exists c; split=> // ev; rewrite H4 mneg_eval.
Qed.

Theorem C12_scale (s : C) m : wf m ->
  wf (mscale s m) /\ (forall ev : K -> C, eval ev (mscale s m) = s *: eval ev m).
Proof.
move=> w; split; first by rewrite /wf_model /wf_dict /dkeys /= -map_comp.
by move=> ev; rewrite mscale_eval // => k; rewrite mulrC.
Qed.

(* an empty Model is a zero for addition whatever its momenta and keep *)
Theorem C12_empty_is_zero a b : nilp (mdata b) ->
  madd kone a b = Ok a /\ (~~ nilp (mdata a) -> madd kone b a = Ok a).
Proof. by rewrite /madd => -> ; case: a => d k mo /=; split=> // /negPf ->. Qed.

(* Models over different momenta are rejected, unless one is empty *)
Theorem C12_momenta_mismatch_rejected a b :
  ~~ nilp (mdata a) -> ~~ nilp (mdata b) -> mmom a <> mmom b ->
  madd kone a b = Err ValueError.
Proof. by rewrite /madd => /negPf -> /negPf -> /eqP ->. Qed.

(* C16, positive part: adding a constant has the right evaluation ... *)
Theorem C16_add_constant_value m (v : V) : wf m ->
  forall ev : K -> C, ev kone = 1 -> eval ev (madd_const kone m v) = eval ev m + v.
Proof.
move=> w ev e1; rewrite !mevalE /madd_const /= deval_set // /= e1 scale1r.
by congr (_ + _); rewrite addrAC subrr add0r.
Qed.

(* ... and leaves a model which already has a constant term usable *)
Theorem C16_add_constant_present m (v : V) :
  all_sym m -> kone \in dkeys kone (mdata m) -> all_sym (madd_const kone m v).
Proof.
rewrite /all_sym /madd_const /=; move: (dget _ _ _ + v) => w.
elim: (mdata m) => //= -[[//|k] x] d IH /= H; rewrite inE /pk_eq /=.
by case: eqP => [_ _|_] /=; [exact: H|apply: IH].
Qed.
End Linear.

Theorem C12_div (K : eqType) (kone : K) (F : fieldType) (Mom : eqType) (V : lmodType F)
    (m : model K Mom V) (s : F) :
  s != 0 -> exists c, mdiv m s = Ok c /\
    (forall ev : K -> F, s *: meval kone ev c = meval kone ev m).
Proof.
move=> s0; rewrite /mdiv (negPf s0) /=; eexists; split; first reflexivity.
move=> ev; rewrite -[X in meval _ _ X]/(mscale s^-1 m) mscale_eval => [|k]; last by rewrite mulrC.
by rewrite scalerA mulfV // scale1r.
Qed.

(* ---- products ---- *)
Section Products.
Variables (K : eqType) (kone : K) (kmul : K -> K -> K) (C : comRingType) (Mom : eqType).
Local Notation eval := (meval kone).
Local Notation model := (model K Mom).

(* evaluations compatible with products of symbols *)
Definition multiplicative_ev (ev : K -> C) : Prop :=
  forall x y, ev (kmul x y) = ev x * ev y.

(* what "product of values" may be: scalar, elementwise and matrix products *)
Record bilinear (V1 V2 V3 : lmodType C) (vmul : V1 -> V2 -> V3) : Prop := Bilinear {
  bl_addl : forall v v' w, vmul (v + v') w = vmul v w + vmul v' w;
  bl_addr : forall v w w', vmul v (w + w') = vmul v w + vmul v w';
  bl_scale : forall x y v w, vmul (x *: v) (y *: w) = (x * y) *: vmul v w }.

Theorem C13_product (V1 V2 V3 : lmodType C) (vmul : V1 -> V2 -> V3) (a : model V1) (b : model V2) :
  bilinear vmul -> mmom a = mmom b -> mkeep a = [::] -> mkeep b = [::] ->
  exists c, [/\ mmul kone kmul vmul a b = Ok c, wf_model kone c, mkeep c = [::], mmom c = mmom a
    & forall ev, multiplicative_ev ev -> eval ev c = vmul (eval ev a) (eval ev b)].
Proof.
case=> h1 h2 h3 E ka kb.
have [c [H w m _ _]] := @mmul_props K kone kmul C Mom (fun=> 0) V1 V2 V3 vmul a b E.
exists c; split=> //; first exact: mmul_keep_nil H.
by move=> ev evM; apply: (mmul_eval evM h1 h2 h3) H.
Qed.

(* Models over different momenta cannot be multiplied *)
Theorem C13_momenta_mismatch_rejected (V1 V2 V3 : lmodType C) (vmul : V1 -> V2 -> V3)
    (a : model V1) (b : model V2) :
  mmom a <> mmom b -> mmul kone kmul vmul a b = Err ValueError.
Proof. by rewrite /mmul => /eqP ->. Qed.

(* matrix product `@` and elementwise product of matrices are such products *)
Lemma bilinear_mulmx m n p :
  bilinear (V1 := [lmodType C of 'M[C]_(m, n)]) (V2 := [lmodType C of 'M_(n, p)])
    (V3 := [lmodType C of 'M_(m, p)]) (fun A B => A *m B).
Proof.
split=> *; rewrite ?mulmxDl ?mulmxDr //.
by rewrite -scalemxAl -scalemxAr scalerA.
Qed.

Definition elementwise m n (A B : 'M[C]_(m, n)) := \matrix_(i, j) (A i j * B i j).
Lemma bilinear_elementwise m n :
  bilinear (V1 := [lmodType C of 'M[C]_(m, n)]) (V2 := [lmodType C of 'M_(m, n)])
    (V3 := [lmodType C of 'M_(m, n)]) (@elementwise m n).
Proof.
split=> *; apply/matrixP => i j; rewrite !mxE ?mulrDl ?mulrDr //.
by rewrite mulrACA.
Qed.

(* Associativity and distributivity hold on evaluations *)
Theorem C13_matmul_associative m n p q
    (a : model [lmodType C of 'M[C]_(m, n)]) (b : model [lmodType C of 'M[C]_(n, p)])
    (c : model [lmodType C of 'M[C]_(p, q)]) :
  mmom a = mmom b -> mmom b = mmom c ->
  mkeep a = [::] -> mkeep b = [::] -> mkeep c = [::] ->
  let mm x y z := @mmul K kone kmul C Mom [lmodType C of 'M[C]_(x, y)] [lmodType C of 'M[C]_(y, z)]
     [lmodType C of 'M[C]_(x, z)] (fun A B => A *m B) in
  exists ab bc l r, [/\ mm m n p a b = Ok ab, mm m p q ab c = Ok l, mm n p q b c = Ok bc,
    mm m n q a bc = Ok r & forall ev, multiplicative_ev ev -> eval ev l = eval ev r].
Proof.
move=> E1 E2 ka kb kc mm.
have [ab [H1 _ k1 m1 e1]] := C13_product (bilinear_mulmx m n p) E1 ka kb.
have [bc [H2 _ k2 m2 e2]] := C13_product (bilinear_mulmx n p q) E2 kb kc.
have [l [H3 _ _ _ e3]] := C13_product (bilinear_mulmx m p q) (etrans m1 (etrans E1 E2)) k1 kc.
have [r [H4 _ _ _ e4]] := C13_product (bilinear_mulmx m n q) (etrans E1 (esym m2)) ka k2.
exists ab, bc, l, r; split=> // ev evM.
by rewrite e3 // e4 // e1 // e2 // mulmxA.
Qed.

Theorem C13_matmul_distributes m n p
    (a : model [lmodType C of 'M[C]_(m, n)]) (b c : model [lmodType C of 'M[C]_(n, p)]) :
  mmom a = mmom b -> mmom b = mmom c ->
  wf_model kone b -> wf_model kone c ->
  mkeep a = [::] -> mkeep b = [::] -> mkeep c = [::] ->
  let mm x y z := @mmul K kone kmul C Mom [lmodType C of 'M[C]_(x, y)] [lmodType C of 'M[C]_(y, z)]
     [lmodType C of 'M[C]_(x, z)] (fun A B => A *m B) in
  exists s l ab ac r, [/\ madd kone b c = Ok s, mm m n p a s = Ok l,
    mm m n p a b = Ok ab /\ mm m n p a c = Ok ac, madd kone ab ac = Ok r
    & forall ev, multiplicative_ev ev -> eval ev l = eval ev r].
Proof.
move=> E1 E2 wb wc ka kb kc mm.
have [s [H1 ws ms es]] := C12_add wb wc E2.
have ks : mkeep s = [::].
  have := @madd'_keep K kone C Mom _ b c; rewrite /madd' H1 kb => -> //.
have [l [H2 _ _ _ e2]] := C13_product (bilinear_mulmx m n p) (etrans E1 (esym ms)) ka ks.
have [ab [H3 w3 _ m3 e3]] := C13_product (bilinear_mulmx m n p) E1 ka kb.
have [ac [H4 w4 _ m4 e4]] := C13_product (bilinear_mulmx m n p) (etrans E1 E2) ka kc.
have [r [H5 _ _ e5]] := C12_add w3 w4 (etrans m3 (esym m4)).
exists s, l, ab, ac, r; split=> // ev evM.
by rewrite e2 // es e5 e3 // e4 // mulmxDr.
Qed.

(* ---- keep sets: C18 ---- *)
(* discard the terms that are not in the set *)
Definition truncated (V : lmodType C) (keep : seq K) (m : model V) : model V :=
  Mk [seq kv <- mdata m | den kone kv.1 \in keep] keep (mmom m).

Definition divisor_closed (keep : seq K) : Prop :=
  forall x y, kmul x y \in keep -> (x \in keep) && (y \in keep).

Local Notation coef m k := (dget kone (mdata m) (Sym k)).

Theorem C18_truncation_commutes_with_product (V1 V2 V3 : lmodType C) (vmul : V1 -> V2 -> V3)
    (keep : seq K) (a : model V1) (b : model V2) :
  divisor_closed keep -> keep != [::] ->
  mmom a = mmom b -> mkeep a = [::] -> mkeep b = [::] ->
  exists full cut,
    [/\ mmul kone kmul vmul a b = Ok full,
        mmul kone kmul vmul (truncated keep a) (truncated keep b) = Ok cut
      & forall k, coef cut k = if k \in keep then coef full k else 0].
Proof.
move=> dc k0 E ka kb.
have [full [H1 _ _ H2 _]] := @mmul_props K kone kmul C Mom (fun=> 0) V1 V2 V3 vmul a b E.
have [cut [H3 _ _ H4 _]] := @mmul_props K kone kmul C Mom (fun=> 0) V1 V2 V3 vmul
  (truncated keep a) (truncated keep b) E.
exists full, cut; split=> // k; rewrite H4 H2 ka kb /=.
have kk x : kept (undup (keep ++ keep)) x = (x \in keep).
  rewrite /kept mem_undup mem_cat orbb; case: (x \in keep) => //=.
  rewrite /nilp size_eq0; apply/negP => /eqP E0.
  have : head x keep \in undup (keep ++ keep).
    by rewrite mem_undup mem_cat; case: keep k0 {dc H4 H3 E0} => //= y s _; rewrite mem_head.
  by rewrite E0.
rewrite big_filter; case: ifPn => kin; last first.
  rewrite big1 // => kv _; rewrite big1 // => kw; rewrite kk => kin'.
  by case: eqP kin => // ->; rewrite kin'.
rewrite [RHS](bigID (fun kv => den kone kv.1 \in keep)) /= [X in _ = _ + X]big1 ?addr0; last first.
  move=> kv nk; rewrite big1 // => kw _; case: eqP kin => // -> /dc /andP[h _].
  by rewrite h in nk.
apply: eq_bigr => kv _; rewrite big_filter_cond.
rewrite [RHS](bigID (fun kw => (den kone kw.1 \in keep) && kept (undup (keep ++ keep)) (kmul (den kone kv.1) (den kone kw.1)))) /=.
rewrite [X in _ = _ + X]big1 ?addr0 //.
move=> kw; rewrite kk; case: eqP kin => // -> h; rewrite h andbT.
by case/dc/andP: h => _ ->.
Qed.

(* Results only contain keys of the keep set. *)
Definition respects_keep (V : lmodType C) (m : model V) : Prop :=
  mkeep m = [::] \/ forall k, k \in dkeys kone (mdata m) -> k \in mkeep m.

Lemma respects_keepP (V : lmodType C) (m : model V) :
  (forall k, k \in dkeys kone (mdata m) -> kept (mkeep m) k) -> respects_keep m.
Proof.
move=> H; case E: (mkeep m) => [|k0 ks]; first by left.
by right=> k /H; rewrite /kept E orbF.
Qed.

Theorem C18_constructor_respects_keep (V : lmodType C) (I : Type) (norm : I -> K)
    (input : seq (I * V)) keep (mom : Mom) :
  respects_keep (construct kone norm input keep mom).
Proof. by apply: respects_keepP; apply: construct_keep. Qed.

Theorem C18_product_respects_keep (V1 V2 V3 : lmodType C) (vmul : V1 -> V2 -> V3)
    (a : model V1) (b : model V2) c :
  mmul kone kmul vmul a b = Ok c -> respects_keep c.
Proof.
move=> H; have [[/nilP E|kE] H2] := mmul_keep H; apply: respects_keepP => k.
  by rewrite E.
by rewrite kE; apply: H2.
Qed.

Theorem C18_symbol_product_respects_keep (V : lmodType C) (s : K) (m : model V) :
  respects_keep (mmul_sym kone kmul s m).
Proof.
have [E H] := mmul_sym_keep kone kmul s m; apply: respects_keepP => k.
by rewrite E; apply: H.
Qed.

Theorem C18_linear_operations_respect_keep (V W : lmodType C) (m : model V) (s : C) (f : V -> W) :
  respects_keep m ->
  [/\ respects_keep (mneg m), respects_keep (mscale s m) & respects_keep (mmap f m)].
Proof.
by case=> H; split; [left|left|left|right|right|right] => //= k;
   rewrite /dkeys -map_comp; apply: H.
Qed.

(* C19, positive part: the keep set itself is preserved *)
Theorem C19_keep_preserved (V W : lmodType C) (m : model V) (s : C) (k : K) (f : V -> W) (v : V) :
  [/\ mkeep (mneg m) = mkeep m, mkeep (mscale s m) = mkeep m,
      mkeep (mmap f m) = mkeep m, mkeep (mmul_sym kone kmul k m) = mkeep m
    & mkeep (madd_const kone m v) = mkeep m].
Proof. by split=> //; case: (mmul_sym_keep kone kmul k m). Qed.

Theorem C19_add_keep_same (V : lmodType C) (a b c : model V) :
  mkeep a = mkeep b -> respects_keep a -> respects_keep b ->
  madd kone a b = Ok c -> mkeep c = mkeep a /\ respects_keep c.
Proof.
move=> E Ha Hb H; have := madd'_keep kone E; have := @dkeys_madd' K kone C Mom V a b.
rewrite /madd' H => Hk Ek; split=> //.
case: Ha => [Ha|Ha]; first by left; rewrite Ek.
case: Hb => [Hb|Hb]; first by left; rewrite Ek E.
by right=> k /Hk; rewrite mem_cat Ek => /orP[/Ha //|/Hb]; rewrite E.
Qed.
End Products.

(* ---- C14: conjugation, transpose, trace ---- *)
Section Conj.
Variables (F : rcfType) (K : eqType) (kone : K) (Mom : eqType).
Local Notation C := (F[i]).
Local Notation mat m n := [lmodType C of 'M[C]_(m, n)].
Local Notation eval := (meval kone).
Variable kconj : K -> K.           (* key.subs(I, -I) *)
Hypothesis kconjK : involutive kconj.

(* real values of the symbols: conjugating the key conjugates its value *)
Definition real_symbols (ev : K -> C) : Prop := forall k, ev (kconj k) = conjc (ev k).

Lemma eval_map (V W : lmodType C) (f : V -> W) (m : model K Mom V) (ev : K -> C) :
  (forall v v', f (v + v') = f v + f v') -> (forall s v, f (s *: v) = s *: f v) ->
  eval ev (mmap f m) = f (eval ev m).
Proof.
move=> fD fZ; have f0 : f 0 = 0 by rewrite -[0 in LHS](scale0r 0) fZ scale0r.
rewrite /meval /= big_map (big_morph f fD f0).
by apply: eq_bigr => kv _; rewrite fZ.
Qed.

Theorem C14_conj m n (H : model K Mom (mat m n)) :
  all_sym H -> wf_model kone H ->
  exists Hc, [/\ mconj kone kconj (@mxconj F m n) H = Ok Hc,
    all_sym Hc /\ wf_model kone Hc, mconj kone kconj (@mxconj F m n) Hc = Ok H
    & forall ev, real_symbols ev -> eval ev Hc = mxconj (eval ev H)].
Proof.
move=> sH wH; rewrite (mconj_props _ (inv_inj kconjK)) //.
eexists; split; first reflexivity.
- split; first by rewrite /all_sym /= all_map; apply/allP.
  rewrite /wf_model /wf_dict /dkeys /= -map_comp.
  rewrite [map _ _](@map_comp _ _ _ kconj (fun kv => den kone kv.1)) map_inj_uniq //.
  exact: inv_inj.
- rewrite mconj_props //; last 3 first.
  + exact: inv_inj.
  + by rewrite /all_sym /= all_map; apply/allP.
  + rewrite /wf_model /wf_dict /dkeys /= -map_comp.
    rewrite [map _ _](@map_comp _ _ _ kconj (fun kv => den kone kv.1)) map_inj_uniq //.
    exact: inv_inj.
  congr Ok; case: H sH {wH} => d k mo /= sH; congr Mk; rewrite -map_comp.
  rewrite -[RHS]map_id; apply/eq_in_map => -[[|x] v] /(allP sH) //= _.
  by rewrite kconjK mxconjK.
- move=> ev real; rewrite /meval /= big_map.
  rewrite (big_morph (@mxconj F m n) (@mxconjD F m n) (@mxconj0 F m n)).
  by apply: eq_bigr => kv _; rewrite mxconjZ /= real.
Qed.

Theorem C14_transpose m n (H : model K Mom (mat m n)) :
  let Ht := mmap (W := mat n m) trmx H in
  mmap (W := mat m n) trmx Ht = H /\ (forall ev, eval ev Ht = (eval ev H)^T).
Proof.
move=> Ht; split; last first.
  by move=> ev; apply: (@eval_map (mat m n) (mat n m)) => *; apply/matrixP => i j; rewrite !mxE.
rewrite /Ht /mmap /=; case: H {Ht} => d k mo /=; congr Mk; rewrite -map_comp -[RHS]map_id.
by apply: eq_map => -[x v] /=; rewrite trmxK.
Qed.

Theorem C14_trace n (H : model K Mom (mat n n)) ev :
  eval ev (mmap (W := [lmodType C of C^o]) (@mxtrace _ n) H) = \tr (eval ev H).
Proof.
apply: (@eval_map (mat n n) [lmodType C of C^o]) => [v v'|s v].
  exact: mxtraceD.
exact: mxtraceZ.
Qed.

Theorem C14_adjoint m n (H : model K Mom (mat m n)) :
  all_sym H -> wf_model kone H ->
  exists Hd, mconj kone kconj (@mxconj F n m) (mmap (W := mat n m) trmx H) = Ok Hd /\
    forall ev, real_symbols ev -> eval ev Hd = dagger (eval ev H).
Proof.
move=> sH wH; have [||Hd [E _ _ e]] := @C14_conj n m (mmap (W := mat n m) trmx H).
- by rewrite /all_sym /= all_map; move: sH; apply: sub_all => -[].
- by move: wH; rewrite /wf_model /wf_dict /dkeys /= -map_comp.
exists Hd; split=> // ev real; rewrite e // (C14_transpose H).2.
by apply/matrixP => i j; rewrite !mxE.
Qed.
End Conj.

(* ---- C17: construction ---- *)
Section Construct.
Variables (K : eqType) (kone : K) (C : comRingType) (Mom : eqType) (V : lmodType C).
Variables (I : Type) (norm : I -> K).

(* keys that denote different expressions: every entry counts *)
Theorem C17_construct_distinct (input : seq (I * V)) (mom : Mom) (ev : K -> C) :
  uniq [seq norm kv.1 | kv <- input] ->
  meval kone ev (construct kone norm input [::] mom) = \sum_(kv <- input) ev (norm kv.1) *: kv.2.
Proof.
move=> u; rewrite /construct /meval /=.
have -> : [seq kv <- input | kept [::] (norm kv.1)] = input.
  by rewrite (eq_filter (a2 := predT)) ?filter_predT.
by rewrite dict_of_uniq ?big_map // /dkeys -map_comp.
Qed.

(* normalize=True sums all entries, also when different keys contribute to the
   same symbol: [expand k] lists the (number, symbol) pairs of the summands of k *)
Theorem C17_normalize_additive (expand : I -> seq (C * K)) (input : seq (I * V)) (mom : Mom)
    (ev : K -> C) :
  meval kone ev (construct_normalized kone expand input mom) =
  \sum_(kv <- input) (\sum_(ck <- expand kv.1) ck.1 * ev ck.2) *: kv.2.
Proof.
rewrite mevalE; have [_ ->] := normalize_props kone ev expand input.
apply: eq_bigr => kv _; rewrite scaler_suml.
by apply: eq_bigr => ck _; rewrite mulrC.
Qed.
End Construct.

(* ---- concrete cases and refutations: one symbol x, keys x^n coded by n ---- *)
Section Concrete.
Local Notation V := [lmodType int of int^o].
Local Notation model := (model [eqType of nat] [eqType of nat] V).
Definition M (d : seq (nat * int)) : model := Mk [seq (Sym kv.1, kv.2 : V) | kv <- d] [::] 0%N.

(* C16 is false: m = {x: 1}; (m + 5).conj() fails because the key is the int 1 *)
Theorem C16_add_constant_refuted :
  exists (m : model) (v : V), [/\ all_sym m, wf_model 0%N m,
    (exists c, mconj 0%N id id m = Ok c) &
    mconj 0%N id id (madd_const 0%N m v) = Err AttributeError /\
    transform_symbolic 0%N (fun k => [:: (1 : int, k)]) (madd_const 0%N m v) = Err AttributeError].
Proof. by exists (M [:: (1%N, 1)]), (5 : V); split=> //; eexists. Qed.

(* C17 is false: {'x': 1, Symbol('x'): 2} keeps only the last entry *)
Theorem C17_construct_collision_refuted :
  exists (norm : bool -> nat) (input : seq (bool * V)),
    uniq [seq kv.1 | kv <- input] /\
    forall x : int, x != 0 ->
    meval 0%N (fun k => x ^+ k) (construct 0%N norm input [::] 0%N)
      != \sum_(kv <- input) x ^+ norm kv.1 *: kv.2.
Proof.
exists (fun=> 1%N), [:: (true, 1 : V); (false, 2%:Z : V)]; split=> // x x0.
rewrite /meval /= !big_cons !big_nil /= !addr0 !expr1 !/GRing.scale /= mulr1.
by rewrite -subr_eq0 opprD addrCA addrN addr0 oppr_eq0.
Qed.

(* C19 is false, addition: keep of the second operand is ignored, and when the first
   operand is empty its own keep is dropped *)
Theorem C19_add_refuted :
  exists (a b c : model), [/\ mkeep a = [:: 0%N; 1%N], mkeep b = [::], madd 0%N a b = Ok c
    & ~~ all (mem (mkeep a)) (dkeys 0%N (mdata c))].
Proof.
exists (Mk [:: (Sym 1%N, 1 : V)] [:: 0%N; 1%N] 0%N), (M [:: (2%N, 1)]); eexists.
by split.
Qed.

(* C19 is false, transform_symbolic (hence rotate_momenta, apply): the keep set is lost *)
Theorem C19_transform_refuted :
  exists (m c : model), [/\ mkeep m = [:: 0%N; 1%N], all (mem (mkeep m)) (dkeys 0%N (mdata m)),
    transform_symbolic 0%N (fun k => [:: (1 : int, k)]) m = Ok c & mkeep c = [::]].
Proof. by exists (Mk [:: (Sym 1%N, 1 : V)] [:: 0%N; 1%N] 0%N); eexists; split. Qed.

(* (1 + 2x) + (3x + x^2) and (1 + 2x)(3 + x), truncated at first order *)
Example C12_example :
  madd 0%N (M [:: (0%N, 1); (1%N, 2)]) (M [:: (1%N, 3); (2%N, 1)]) =
  Ok (M [:: (1%N, 5%:Z); (0%N, 1); (2%N, 1)]).
Proof. by []. Qed.

Example C13_example :
  exists c, mmul 0%N addn (fun x y : V => x * y : V) (M [:: (0%N, 1); (1%N, 2)]) (M [:: (0%N, 3); (1%N, 1)])
    = Ok c /\ forall x : int, meval 0%N (fun k => x ^+ k) c = (1 + 2%:Z * x) * (3%:Z + x).
Proof.
have B : bilinear (fun x y : V => x * y : V).
  by split=> *; rewrite ?mulrDl ?mulrDr // /GRing.scale /= mulrACA.
have [c [E _ _ _ H]] := @C13_product _ 0%N addn _ _ V V V _
   (M [:: (0%N, 1); (1%N, 2)]) (M [:: (0%N, 3); (1%N, 1)]) B erefl erefl erefl.
exists c; split=> // x; rewrite H /meval; last by move=> i j; rewrite exprD.
rewrite /= !big_cons !big_nil /= /GRing.scale /= !addr0 expr0 expr1 !mul1r mulr1.
by rewrite [x * _]mulrC.
Qed.

Example C18_example : divisor_closed addn [:: 0%N; 1%N; 2%N].
Proof. by move=> [|[|[|x]]] [|[|[|y]]]. Qed.

Example C14_example : @real_symbols realalg_rcfType [eqType of nat] id (fun k => 2%:R ^+ k).
Proof. by move=> k; rewrite rmorphX rmorph_nat. Qed.

Example C17_example :
  construct_normalized 0%N (fun k : nat => [:: (k.+1%:Z, 1%N)]) [:: (0%N, 1 : V); (1%N, 1 : V)] 0%N =
  M [:: (1%N, 3%:Z)].
Proof. by []. Qed.
End Concrete.

Print Assumptions C12_add.
Print Assumptions C12_sub.
Print Assumptions C13_product.
Print Assumptions C13_matmul_associative.
Print Assumptions C14_conj.
Print Assumptions C14_adjoint.
Print Assumptions C18_truncation_commutes_with_product.
