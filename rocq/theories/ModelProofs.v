(* Proofs about the dictionary level of class Model (ModelCore.v). *)
From mathcomp Require Import all_ssreflect all_algebra.
From Verif Require Import Prelude ModelCore.

Set Implicit Arguments.
Unset Strict Implicit.
Unset Printing Implicit Defensive.
Import GRing.Theory.
Local Open Scope ring_scope.

Section DictLemmas.
Variables (K : eqType) (kone : K).
Section Z.
Variable V : zmodType.
Local Notation den := (den kone).
Local Notation pk_eq := (pk_eq kone).
Local Notation dkeys := (@dkeys K kone V).
Local Notation dget := (@dget K kone V).
Local Notation dset := (@dset K kone V).
Local Notation dhas := (@dhas K kone V).
Local Notation wf_dict := (@wf_dict K kone V).
Implicit Types (d : seq (pykey K * V)) (k : pykey K) (v : V).

Lemma dhasE d k : dhas d k = (den k \in dkeys d).
Proof. by elim: d => //= kv d IH; rewrite in_cons IH. Qed.

Lemma dget_den d k k' : den k = den k' -> dget d k = dget d k'.
Proof. by move=> E; elim: d => //= kv d ->; rewrite /pk_eq E. Qed.

Lemma dget_notin d k : den k \notin dkeys d -> dget d k = 0.
Proof.
elim: d => //= kv d IH; rewrite in_cons negb_or => /andP[/negPf ne /IH ->].
by rewrite /pk_eq ne.
Qed.

Lemma dget_In d kv : wf_dict d -> List.In kv d -> dget d kv.1 = kv.2.
Proof.
elim: d => //= kv' d IH /andP[nin wf] [->|H]; first by rewrite /pk_eq eqxx.
case: ifP => [/eqP E|_]; last exact: IH.
case/negP: nin; rewrite -E.
by elim: d H {IH wf} => //= x d IH [->|/IH]; rewrite in_cons ?eqxx // => ->; rewrite orbT.
Qed.

Lemma dget_set d k v k' : dget (dset d k v) k' = if pk_eq k' k then v else dget d k'.
Proof.
elim: d => [|kv d IH] /=; first by case: ifP.
rewrite /pk_eq; case: (eqVneq (den k) (den kv.1)) => [E|ne] /=.
  by rewrite E /ModelCore.pk_eq; case: (den k' == den kv.1).
by rewrite IH /ModelCore.pk_eq; case: (eqVneq (den k') (den kv.1)) => [->|//]; rewrite eq_sym (negPf ne).
Qed.

Lemma dkeys_set d k v :
  dkeys (dset d k v) = if dhas d k then dkeys d else rcons (dkeys d) (den k).
Proof.
elim: d => //= kv d IH; rewrite /pk_eq; case: eqP => [->|_] //=.
by rewrite IH; case: ifP.
Qed.

Lemma mem_dkeys_set d k v x :
  (x \in dkeys (dset d k v)) = (x \in dkeys d) || (x == den k).
Proof.
rewrite dkeys_set dhasE; case: ifP => H; last by rewrite mem_rcons in_cons orbC.
by case: eqP => [->|]; rewrite ?H ?orbF.
Qed.

Lemma wf_set d k v : wf_dict d -> wf_dict (dset d k v).
Proof.
by rewrite /ModelCore.wf_dict dkeys_set dhasE; case: ifP => // H wf; rewrite rcons_uniq H wf.
Qed.

Lemma foldl_set_wf l d :
  wf_dict d -> wf_dict (foldl (fun d kv => dset d kv.1 kv.2) d l).
Proof. by elim: l d => //= kv l IH d wf; apply: IH; apply: wf_set. Qed.

Lemma dict_of_wf l : wf_dict (dict_of kone l).
Proof. exact: foldl_set_wf. Qed.

Lemma dict_of_uniq l : uniq (dkeys l) -> dict_of kone l = l.
Proof.
rewrite /dict_of => u.
suff H d : uniq (dkeys (d ++ l)) -> foldl (fun d kv => dset d kv.1 kv.2) d l = d ++ l by exact: H.
elim: l d {u} => [|kv l IH] d /=; first by rewrite cats0.
move=> u; have nin : den kv.1 \notin dkeys d.
  move: u; rewrite /ModelCore.dkeys map_cat cat_uniq /= => /and3P[_ /norP[H _] _]; exact: H.
have -> : dset d kv.1 kv.2 = rcons d kv.
  elim: d nin {u IH} => [|x d IH] /=; first by case: kv.
  by rewrite in_cons negb_or => /andP[/negPf ne nin]; rewrite /pk_eq ne IH.
by rewrite IH cat_rcons.
Qed.
End Z.
End DictLemmas.

Section Eval.
Variables (K : eqType) (kone : K) (C : ringType).
Local Notation den := (den kone).
Variable ev : K -> C.

Section OneShape.
Variable V : lmodType C.
Local Notation dkeys := (@dkeys K kone V).
Local Notation dget := (@dget K kone V).
Local Notation wf_dict := (@wf_dict K kone V).
Implicit Types (d : seq (pykey K * V)).

Definition deval d : V := \sum_(kv <- d) ev (den kv.1) *: kv.2.

Lemma deval_keys d (ks : seq K) :
  wf_dict d -> uniq ks -> {subset dkeys d <= ks} ->
  deval d = \sum_(k <- ks) ev k *: dget d (Sym k).
Proof.
move=> wf u sub; elim: d wf sub => [|kv d IH] /=.
  by move=> _ _; rewrite /deval big_nil big1 // => k _; rewrite scaler0.
case/andP=> nin wf sub; rewrite /deval big_cons -/(deval d) IH //; last first.
  by move=> x H; apply: sub; rewrite in_cons H orbT.
have k0 : den kv.1 \in ks by apply: sub; rewrite in_cons eqxx.
rewrite !(bigD1_seq (den kv.1)) //= addrA [in RHS]/pk_eq eqxx.
have -> : dget d (Sym (den kv.1)) = 0 by apply: dget_notin.
rewrite scaler0 addr0; congr (_ + _); apply: eq_bigr => k ne.
by rewrite /pk_eq /= (negPf ne).
Qed.

Lemma deval_ext d d' : wf_dict d -> wf_dict d' ->
  (forall k, dget d (Sym k) = dget d' (Sym k)) -> deval d = deval d'.
Proof.
move=> wf wf' E; pose ks := undup (dkeys d ++ dkeys d').
rewrite !(@deval_keys _ ks) ?undup_uniq //.
- by apply: eq_bigr => k _; rewrite E.
- by move=> x H; rewrite mem_undup mem_cat H orbT.
- by move=> x H; rewrite mem_undup mem_cat H.
Qed.

Lemma deval_set d k v : wf_dict d ->
  deval (dset kone d k v) = deval d + ev (den k) *: (v - dget d k).
Proof.
move=> wf; pose ks := undup (den k :: dkeys d).
have kk : den k \in ks by rewrite mem_undup in_cons eqxx.
have s1 : {subset dkeys d <= ks} by move=> x H; rewrite mem_undup in_cons H orbT.
have s2 : {subset dkeys (dset kone d k v) <= ks}.
  by move=> x; rewrite mem_dkeys_set mem_undup in_cons orbC.
rewrite !(@deval_keys _ ks) ?undup_uniq ?wf_set //.
rewrite !(bigD1_seq (den k)) ?undup_uniq //= dget_set /pk_eq /= eqxx addrAC -scalerDr.
rewrite (@dget_den K kone V d (Sym (den k)) k) // addrCA subrr addr0; congr (_ + _).
by apply: eq_bigr => x ne; rewrite dget_set /pk_eq /= (negPf ne).
Qed.

Lemma deval_cat d d' : deval (d ++ d') = deval d + deval d'.
Proof. exact: big_cat. Qed.

(* ---- addition ---- *)
Local Notation add_data := (@add_data K kone C V).

Lemma dkeys_add a b x :
  (x \in dkeys (add_data a b)) = (x \in dkeys a) || (x \in dkeys b).
Proof.
rewrite /ModelCore.add_data /ModelCore.dkeys !map_cat !mem_cat -map_comp.
have E (c : seq (pykey K * V)) (p : pred (pykey K)) (q : pred K) :
   (forall k, p k = q (den k)) ->
   (x \in [seq den kv.1 | kv <- c & p kv.1]) = (x \in [seq den kv.1 | kv <- c]) && q x.
  move=> pq; elim: c => //= kv c IH; rewrite pq in_cons.
  case: (eqVneq x (den kv.1)) => [xE|ne].
    by case: ifP => H; rewrite /= ?in_cons ?IH xE ?eqxx ?H ?andbF.
  by case: ifP => H; rewrite /= ?in_cons ?(negPf ne) IH.
rewrite (E a _ (fun y => y \in dkeys b)); last by move=> k; rewrite dhasE.
rewrite (E a (fun k => ~~ dhas kone b k) (fun y => y \notin dkeys b)); last by move=> k; rewrite dhasE.
rewrite (E b (fun k => ~~ dhas kone a k) (fun y => y \notin dkeys a)); last by move=> k; rewrite dhasE.
by rewrite -/(dkeys a) -/(dkeys b); case: (x \in dkeys a); case: (x \in dkeys b).
Qed.

Lemma dget_filter (c : seq (pykey K * V)) (p : pred (pykey K)) k :
  (forall k', den k' = den k -> p k' = p k) ->
  dget [seq kv <- c | p kv.1] k = if p k then dget c k else 0.
Proof.
move=> pE; elim: c => [|kv c IH] /=; first by case: ifP.
case: ifP => pkv /=; rewrite IH /pk_eq; case: eqP => // E; first by rewrite -(pE kv.1) ?pkv.
by rewrite -(pE kv.1) ?pkv.
Qed.

Lemma dget_cat (c c' : seq (pykey K * V)) k :
  dget (c ++ c') k = if den k \in dkeys c then dget c k else dget c' k.
Proof.
elim: c => //= kv c IH; rewrite in_cons /pk_eq; case: eqP => //= _; exact: IH.
Qed.


Lemma dget_add a b k : dget (add_data a b) k = dget a k + dget b k.
Proof.
rewrite /ModelCore.add_data !dget_cat.
have pE (c : seq (pykey K * V)) k' : den k' = den k -> dhas kone c k' = dhas kone c k by move=> E; rewrite !dhasE E.
have M : dget [seq (kv.1, kv.2 + dget b kv.1) | kv <- a & dhas kone b kv.1] k
         = if (den k \in dkeys a) && dhas kone b k then dget a k + dget b k else 0.
  elim: a => //= kv a IH; case: ifP => bkv /=; rewrite ?IH in_cons /pk_eq.
    by case: eqP => //= E; rewrite -(pE b kv.1) // bkv (dget_den b E).
  by case: eqP => //= E; rewrite -(pE b kv.1) // bkv andbF.
have Mk : (den k \in dkeys [seq (kv.1, kv.2 + dget b kv.1) | kv <- a & dhas kone b kv.1])
          = (den k \in dkeys a) && dhas kone b k.
  rewrite {1}/ModelCore.dkeys -map_comp; elim: a {M} => //= kv a IH.
  case: ifP => bkv /=; rewrite ?in_cons IH; case: eqP => //= E.
    by rewrite -(pE b kv.1) ?bkv.
  by rewrite -(pE b kv.1) ?bkv ?andbF.
have Fk (c c' : seq (pykey K * V)) : (den k \in dkeys [seq kv <- c | ~~ dhas kone c' kv.1])
          = (den k \in dkeys c) && ~~ dhas kone c' k.
  elim: c => //= kv c IH; case: ifP => bkv /=; rewrite ?in_cons IH; case: eqP => //= E.
    by rewrite -(pE c' kv.1) ?bkv.
  by rewrite -(pE c' kv.1) ?bkv ?andbF.
rewrite Mk M Fk !(@dget_filter _ (fun k' => ~~ dhas kone _ k')); last first.
- by move=> k' E; rewrite pE.
- by move=> k' E; rewrite pE.
rewrite !dhasE; case: (boolP (den k \in dkeys a)) => ka; case: (boolP (den k \in dkeys b)) => kb //=.
- by rewrite (dget_notin kb) addr0.
- by rewrite (dget_notin ka) add0r.
- by rewrite (dget_notin ka) (dget_notin kb) addr0.
Qed.

Lemma wf_add a b : wf_dict a -> wf_dict b -> wf_dict (add_data a b).
Proof.
move=> wa wb; rewrite /ModelCore.wf_dict /ModelCore.add_data /ModelCore.dkeys !map_cat -map_comp.
have ss (c : seq (pykey K * V)) p : subseq [seq den kv.1 | kv <- c & p kv] [seq den kv.1 | kv <- c].
  by apply: map_subseq; apply: filter_subseq.
rewrite !cat_uniq; apply/and3P; split.
- exact: subseq_uniq (ss _ _) wa.
- apply/hasPn => x; rewrite mem_cat => H; apply/negP => /mapP [kv].
  rewrite mem_filter => /andP[bkv akv] /= xE.
  case/orP: H => /mapP [kw]; rewrite mem_filter => /andP[bkw bw] xE'.
    by move: bkw; rewrite dhasE -xE' xE -dhasE bkv.
  move: bkw; rewrite dhasE -xE' xE => /negP; apply.
  by apply/mapP; exists kv.
- apply/andP; split; first exact: subseq_uniq (ss _ _) wa.
  apply/andP; split; last exact: subseq_uniq (ss _ _) wb.
  apply/hasPn => x /mapP [kw]; rewrite mem_filter => /andP[akw _] xE.
  apply/negP => /mapP [kv]; rewrite mem_filter => /andP[_ akv] xE'.
  by move: akw; rewrite dhasE -xE xE' => /negP; apply; apply/mapP; exists kv.
Qed.

Lemma deval_add a b : wf_dict a -> wf_dict b -> deval (add_data a b) = deval a + deval b.
Proof.
move=> wa wb; pose ks := undup (dkeys a ++ dkeys b).
have sa x : x \in dkeys a -> x \in ks by rewrite mem_undup mem_cat => ->.
have sb x : x \in dkeys b -> x \in ks by rewrite mem_undup mem_cat orbC => ->.
rewrite !(@deval_keys _ ks) ?undup_uniq ?wf_add //; last first.
  by move=> x; rewrite dkeys_add => /orP[/sa|/sb].
rewrite -big_split; apply: eq_bigr => k _ /=.
by rewrite dget_add scalerDr.
Qed.
End OneShape.
End Eval.

(* ---- models ---- *)
Section Models.
Variables (K : eqType) (kone : K) (kmul : K -> K -> K) (C : ringType) (Mom : eqType).
Local Notation den := (den kone).
Variable ev : K -> C.
Local Notation model := (model K Mom).
Local Notation meval := (meval kone ev).
Local Notation wf := (@wf_model K kone Mom _).
Local Notation coef m k := (dget kone (mdata m) (Sym k)).

Section OneShape.
Variable V : lmodType C.
Implicit Types (a b m : model V).

Lemma mevalE m : meval m = deval kone ev (mdata m). Proof. by []. Qed.

Lemma meval_nil m : nilp (mdata m) -> meval m = 0.
Proof. by move/nilP => E; rewrite mevalE E /deval big_nil. Qed.

Lemma madd_ok a b : mmom a = mmom b -> exists c, madd kone a b = Ok c.
Proof. by move=> E; rewrite /madd E eqxx; case: (nilp _); [|case: (nilp _)]; eexists. Qed.

Lemma madd_wf a b c : wf a -> wf b -> madd kone a b = Ok c -> wf c.
Proof.
rewrite /madd => wa wb; case: ifP => _; first by case=> <-.
case: ifP => _; first by case=> <-.
by case: ifP => // _ [<-]; apply: wf_add.
Qed.

Lemma madd_coef a b c k : madd kone a b = Ok c -> coef c k = coef a k + coef b k.
Proof.
rewrite /madd; case: ifP => [/nilP E [<-]|_]; first by rewrite E /= addr0.
case: ifP => [/nilP E [<-]|_]; first by rewrite E /= add0r.
by case: ifP => // _ [<-]; rewrite /= dget_add.
Qed.

Lemma madd_eval a b c : wf a -> wf b -> madd kone a b = Ok c -> meval c = meval a + meval b.
Proof.
rewrite /madd => wa wb; case: ifP => [/meval_nil -> [<-]|_]; first by rewrite addr0.
case: ifP => [/meval_nil -> [<-]|_]; first by rewrite add0r.
by case: ifP => // _ [<-]; rewrite !mevalE deval_add.
Qed.

Lemma madd_mom a b c : mmom a = mmom b -> madd kone a b = Ok c -> mmom c = mmom a.
Proof.
rewrite /madd => E; case: ifP => [_ [<-] //|_].
case: ifP => [_ [<-] //|_].
by case: ifP => // _ [<-].
Qed.

Lemma madd'P a b : mmom a = mmom b -> madd kone a b = Ok (madd' kone a b).
Proof. by move/madd_ok => [c H]; rewrite /madd' H. Qed.

Lemma msum_props start (l : seq (model V)) :
  (forall m, List.In m l -> mmom m = mmom start) ->
  wf start -> (forall m, List.In m l -> wf m) ->
  [/\ wf (msum kone start l),
      meval (msum kone start l) = meval start + \sum_(m <- l) meval m,
      mmom (msum kone start l) = mmom start &
      forall k, coef (msum kone start l) k = coef start k + \sum_(m <- l) coef m k].
Proof.
rewrite /msum; elim: l start => [|m l IH] start /= Hm ws Hw.
  by split=> // [|k]; rewrite big_nil addr0.
have E : mmom start = mmom m by rewrite Hm //; left.
have wm : wf m by apply: Hw; left.
have A := madd'P E.
have [||| H1 H2 H3 H4] := IH (madd' kone start m).
- by move=> m' H; rewrite (madd_mom E A) Hm //; right.
- exact: madd_wf A.
- by move=> m' H; apply: Hw; right.
split=> //.
- by rewrite H2 (madd_eval ws wm A) big_cons addrA.
- by rewrite H3 (madd_mom E A).
- by move=> k; rewrite H4 (madd_coef k A) big_cons addrA.
Qed.

Lemma mneg_wf m : wf (mneg m) = wf m.
Proof. by rewrite /wf_model /wf_dict /dkeys /= -map_comp. Qed.
Lemma mneg_eval m : meval (mneg m) = - meval m.
Proof.
rewrite /ModelCore.meval /= big_map -sumrN; apply: eq_bigr => kv _ /=.
by rewrite scalerN.
Qed.
Lemma mscale_eval (s : C) m : (forall k, ev k * s = s * ev k) ->
  meval (mscale s m) = s *: meval m.
Proof.
move=> cm; rewrite /ModelCore.meval /= big_map scaler_sumr; apply: eq_bigr => kv _ /=.
by rewrite !scalerA cm.
Qed.

(* single term models *)
Lemma construct1 keep (mom : Mom) k (v : V) : kept keep k ->
  construct kone id [:: (k, v)] keep mom = Mk [:: (Sym k, v)] keep mom.
Proof. by move=> kk; rewrite /construct /= kk. Qed.

Lemma eval1 keep (mom : Mom) k (v : V) : meval (Mk [:: (Sym k, v)] keep mom) = ev k *: v.
Proof. by rewrite /ModelCore.meval /= big_seq1. Qed.

Lemma coef1 keep (mom : Mom) k (v : V) k' :
  coef (Mk [:: (Sym k, v)] keep mom) k' = if k' == k then v else 0.
Proof. by []. Qed.

(* normalisation *)
Section Normalize.
Variables (I : Type) (expand : I -> seq (C * K)).
Lemma normalize_props (input : seq (I * V)) :
  wf_dict kone (normalize_data kone expand input) /\
  deval kone ev (normalize_data kone expand input) =
    \sum_(kv <- input) \sum_(ck <- expand kv.1) (ev ck.2 * ck.1) *: kv.2.
Proof.
rewrite /normalize_data; set d := foldl _ _ _.
suff [w E] : wf_dict kone d /\
  deval kone ev d = \sum_(kv <- input) \sum_(ck <- expand kv.1) (ev ck.2 * ck.1) *: kv.2.
  split; first by apply: subseq_uniq w; apply: map_subseq; apply: filter_subseq.
  rewrite -E /deval big_filter [RHS](bigID (fun kv => kv.2 != 0)) /= [X in _ + X]big1 ?addr0 //.
  by move=> kv /negPn/eqP ->; rewrite scaler0.
have inner (v : V) l d0 : wf_dict kone d0 ->
  let d1 := foldl (fun d (ck : C * K) =>
        dset kone d (Sym ck.2) (dget kone d (Sym ck.2) + ck.1 *: v)) d0 l in
  wf_dict kone d1 /\ deval kone ev d1 = deval kone ev d0 + \sum_(ck <- l) (ev ck.2 * ck.1) *: v.
  elim: l d0 => [|ck l IH] d0 w /=; first by rewrite big_nil addr0.
  have [|H1 H2] := IH (dset kone d0 (Sym ck.2) (dget kone d0 (Sym ck.2) + ck.1 *: v)).
    exact: wf_set.
  split=> //; rewrite H2 deval_set // big_cons addrA; congr (_ + _ + _).
  by rewrite addrC addKr scalerA.
rewrite {}/d.
have outer d0 : wf_dict kone d0 ->
  let d1 := foldl (fun d (kv : I * V) =>
              foldl (fun d (ck : C * K) =>
                 dset kone d (Sym ck.2) (dget kone d (Sym ck.2) + ck.1 *: kv.2)) d (expand kv.1))
            d0 input in
  wf_dict kone d1 /\ deval kone ev d1 =
    deval kone ev d0 + \sum_(kv <- input) \sum_(ck <- expand kv.1) (ev ck.2 * ck.1) *: kv.2.
  elim: input d0 => [|kv l IH] d0 w; first by rewrite /= big_nil addr0.
  have [w1 E1] := inner kv.2 (expand kv.1) d0 w.
  have [H1 H2] := IH _ w1; split=> //.
  by rewrite /= H2 E1 big_cons addrA.
by have [w E] := outer [::] isT; split=> //; rewrite E /deval big_nil add0r.
Qed.
End Normalize.

Definition all_sym m : bool := all (fun kv => if kv.1 is Sym _ then true else false) (mdata m).

Lemma transform_props (func : K -> seq (C * K)) m :
  all_sym m ->
  exists m', [/\ transform_symbolic kone func m = Ok m', wf m', mmom m' = mmom m &
    meval m' = \sum_(kv <- mdata m) \sum_(ck <- func (den kv.1)) (ev ck.2 * ck.1) *: kv.2].
Proof.
move=> H; rewrite /transform_symbolic -/(all_sym m) H; eexists; split; first reflexivity.
all: set l := map _ _.
all: have Hl x : List.In x l -> exists kv : pykey K * V,
     x = construct_normalized kone func [:: (den kv.1, kv.2)] (mmom m).
all: try by (rewrite /l; elim: (mdata m) => //= kv d IH [<-|/IH]; [exists kv|]).
all: have [|||H1 H2 H3 H4] := @msum_props (zeros_like V m) l.
all: try by (move=> x /Hl [kv ->]).
all: try by [].
all: try by (move=> x /Hl [kv ->]; case: (normalize_props func [:: (den kv.1, kv.2)])).
rewrite H2 meval_nil // add0r /l big_map; apply: eq_bigr => kv _.
rewrite mevalE /construct_normalized.
have [_ ->] := normalize_props func [:: (den kv.1, kv.2)].
by rewrite big_seq1.
Qed.

(* conj *)
Lemma mconj_props (kconj : K -> K) (vconj : V -> V) m :
  injective kconj -> all_sym m -> wf m ->
  mconj kone kconj vconj m =
    Ok (Mk [seq (Sym (kconj (den kv.1)), vconj kv.2) | kv <- mdata m] (mkeep m) (mmom m)).
Proof.
move=> inj H w; rewrite /mconj -/(all_sym m) H dict_of_uniq //.
rewrite /dkeys -map_comp /= [map _ _](@map_comp _ _ _ kconj (fun kv => den kv.1)).
by rewrite map_inj_uniq.
Qed.
End OneShape.
End Models.

(* ---- products ---- *)
Section Products.
Variables (K : eqType) (kone : K) (kmul : K -> K -> K) (C : comRingType) (Mom : eqType).
Local Notation den := (den kone).
Variable ev : K -> C.
Hypothesis evM : forall x y, ev (kmul x y) = ev x * ev y.
Local Notation model := (model K Mom).
Local Notation meval := (meval kone ev).
Local Notation wf := (@wf_model K kone Mom _).
Local Notation coef m k := (dget kone (mdata m) (Sym k)).
Variables (V1 V2 V3 : lmodType C) (vmul : V1 -> V2 -> V3).
Hypothesis vmulDl : forall v v' w, vmul (v + v') w = vmul v w + vmul v' w.
Hypothesis vmulDr : forall v w w', vmul v (w + w') = vmul v w + vmul v w'.
Hypothesis vmulZ : forall x y v w, vmul (x *: v) (y *: w) = (x * y) *: vmul v w.

Lemma vmul0l w : vmul 0 w = 0.
Proof. by have /eqP := vmulDl 0 0 w; rewrite addr0 -subr_eq0 opprD addrA subrr add0r oppr_eq0 => /eqP. Qed.
Lemma vmul0r v : vmul v 0 = 0.
Proof. by have /eqP := vmulDr v 0 0; rewrite addr0 -subr_eq0 opprD addrA subrr add0r oppr_eq0 => /eqP. Qed.

Lemma vmul_suml I (r : seq I) (f : I -> V1) w :
  vmul (\sum_(i <- r) f i) w = \sum_(i <- r) vmul (f i) w.
Proof. exact: (big_morph (fun v => vmul v w) (fun x y => vmulDl x y w) (vmul0l w)). Qed.
Lemma vmul_sumr I (r : seq I) (f : I -> V2) v :
  vmul v (\sum_(i <- r) f i) = \sum_(i <- r) vmul v (f i).
Proof. exact: (big_morph (fun w => vmul v w) (vmulDr v) (vmul0r v)). Qed.

Lemma mmul_props (a : model V1) (b : model V2) :
  mmom a = mmom b ->
  let keep := undup (mkeep a ++ mkeep b) in
  exists c, [/\ mmul kone kmul vmul a b = Ok c, wf c, mmom c = mmom a,
   (forall k, coef c k =
     \sum_(kv <- mdata a) \sum_(kw <- mdata b | kept keep (kmul (den kv.1) (den kw.1)))
        (if k == kmul (den kv.1) (den kw.1) then vmul kv.2 kw.2 else 0)) &
   meval c = \sum_(kv <- mdata a) \sum_(kw <- mdata b | kept keep (kmul (den kv.1) (den kw.1)))
        ev (kmul (den kv.1) (den kw.1)) *: vmul kv.2 kw.2].
Proof.
move=> E keep; rewrite /mmul E eqxx /=; set terms := flatten _.
have TE (f : model V3 -> V3) (g : K -> V3 -> V3) :
    (forall k v, kept keep k -> f (Mk [:: (Sym k, v)] keep (mmom b)) = g k v) ->
    \sum_(m <- terms) f m =
    \sum_(kv <- mdata a) \sum_(kw <- mdata b | kept keep (kmul (den kv.1) (den kw.1)))
       g (kmul (den kv.1) (den kw.1)) (vmul kv.2 kw.2).
  move=> fg; rewrite /terms big_flatten /= big_map; apply: eq_bigr => kv _.
  rewrite big_map big_filter; apply: eq_bigr => kw kk.
  by rewrite construct1 // fg.
have Ht m : List.In m terms -> exists k v, kept keep k /\ m = Mk [:: (Sym k, v)] keep (mmom b).
  rewrite /terms; elim: (mdata a) => //= kv d IH /In_cat [|]; last exact: IH.
  elim: (mdata b) => //= kw d' IH'; case: ifP => kk //=; case=> [<-|]; last exact: IH'.
  by exists (kmul (den kv.1) (den kw.1)), (vmul kv.2 kw.2); rewrite construct1.
have TEe : \sum_(m <- terms) meval m =
    \sum_(kv <- mdata a) \sum_(kw <- mdata b | kept keep (kmul (den kv.1) (den kw.1)))
        ev (kmul (den kv.1) (den kw.1)) *: vmul kv.2 kw.2.
  by rewrite (TE meval (fun k v => ev k *: v)) // => k v _; rewrite eval1.
case TT: terms Ht => [|t ts] Ht.
  exists (zeros_like V3 a); split=> // [k|].
    by rewrite -(TE (fun m => coef m k) (fun k' v => if k == k' then v else 0)) // TT big_nil.
  by rewrite -TEe TT big_nil meval_nil.
have Et : mmom t = mmom b by have [|k1 [v1 [_ ->]]] := Ht t; first by left.
have wt : wf t by have [|k1 [v1 [_ ->]]] := Ht t; first by left.
have [|||H1 H2 H3 H4] := @msum_props K kone C Mom ev V3 t ts; rewrite ?Et //.
- by move=> m Hm; have [|k1 [v1 [_ ->]]] := Ht m; first by right.
- by move=> m Hm; have [|k1 [v1 [_ ->]]] := Ht m; first by right.
exists (msum kone t ts); split=> // [|k|].
- by rewrite H3.
- by rewrite H4 -(TE (fun m => coef m k) (fun k' v => if k == k' then v else 0)) // TT big_cons.
- by rewrite H2 -TEe TT big_cons.
Qed.

Lemma mmul_eval (a : model V1) (b : model V2) c :
  mkeep a = [::] -> mkeep b = [::] ->
  mmul kone kmul vmul a b = Ok c -> meval c = vmul (meval a) (meval b).
Proof.
move=> ka kb; case E: (mmom a == mmom b); last by rewrite /mmul E.
have [c' [-> _ _ _ H] [<-]] := mmul_props (eqP E).
rewrite H ka kb /= /ModelCore.meval vmul_suml; apply: eq_bigr => kv _.
rewrite vmul_sumr; apply: eq_bigr => kw _.
by rewrite vmulZ evM.
Qed.

(* products by a symbol *)
Lemma mmul_sym_props (V : lmodType C) (s : K) (m : model V) :
  [/\ wf (mmul_sym kone kmul s m), mmom (mmul_sym kone kmul s m) = mmom m,
      meval (mmul_sym kone kmul s m) =
        \sum_(kv <- mdata m | kept (mkeep m) (kmul (den kv.1) s)) (ev (den kv.1) * ev s) *: kv.2 &
      forall k, coef (mmul_sym kone kmul s m) k =
        \sum_(kv <- mdata m | kept (mkeep m) (kmul (den kv.1) s))
           if k == kmul (den kv.1) s then kv.2 else 0].
Proof.
rewrite /mmul_sym; set l := map _ _.
have Ht x : List.In x l -> exists k v, kept (mkeep m) k /\ x = Mk [:: (Sym k, v)] (mkeep m) (mmom m).
  rewrite /l; elim: (mdata m) => //= kv d IH; case: ifP => kk //=; case=> [<-|]; last exact: IH.
  by exists (kmul (den kv.1) s), kv.2; rewrite construct1.
have [|||H1 H2 H3 H4] := @msum_props K kone C Mom ev V (zeros_like V m) l.
- by move=> x /Ht [k [v [_ ->]]].
- by [].
- by move=> x /Ht [k [v [_ ->]]].
split=> //.
- rewrite H2 meval_nil // add0r /l big_map big_filter; apply: eq_bigr => kv kk.
  by rewrite construct1 // eval1 evM.
- move=> k; rewrite H4 /= add0r /l big_map big_filter; apply: eq_bigr => kv kk.
  by rewrite construct1.
Qed.
End Products.

(* ---- keep sets ---- *)
Section Keep.
Variables (K : eqType) (kone : K) (kmul : K -> K -> K) (C : comRingType) (Mom : eqType).
Local Notation den := (den kone).
Local Notation model := (model K Mom).

Lemma madd'_keep (V : lmodType C) (a b : model V) : mkeep a = mkeep b ->
  mkeep (madd' kone a b) = mkeep a.
Proof. by move=> E; rewrite /madd' /madd; do 3! case: ifP => // _; rewrite /= E. Qed.

Lemma msum_keep (V : lmodType C) (start : model V) l :
  (forall m, List.In m l -> mkeep m = mkeep start) -> mkeep (msum kone start l) = mkeep start.
Proof.
rewrite /msum; elim: l start => //= m l IH start H.
have E := madd'_keep (esym (H _ (or_introl erefl))).
by rewrite IH E // => m' Hm; rewrite H //; right.
Qed.

Lemma dkeys_madd' (V : lmodType C) (a b : model V) k :
  k \in dkeys kone (mdata (madd' kone a b)) ->
  k \in dkeys kone (mdata a) ++ dkeys kone (mdata b).
Proof.
rewrite mem_cat /madd' /madd; case: ifP => [_ -> //|_].
case: ifP => [_ -> //|_]; first by rewrite orbT.
by case: ifP => [_ -> //|_]; rewrite /= dkeys_add.
Qed.

Lemma dkeys_msum (V : lmodType C) (start : model V) l (P : K -> Prop) :
  (forall k, k \in dkeys kone (mdata start) -> P k) ->
  (forall m k, List.In m l -> k \in dkeys kone (mdata m) -> P k) ->
  forall k, k \in dkeys kone (mdata (msum kone start l)) -> P k.
Proof.
rewrite /msum; elim: l start => //= m l IH start H1 H2; apply: IH.
- move=> k /dkeys_madd'; rewrite mem_cat => /orP[/H1 //|]; apply: H2; by left.
- by move=> m' k Hm; apply: H2; right.
Qed.

Variables (V1 V2 V3 : lmodType C) (vmul : V1 -> V2 -> V3).
Lemma mmul_keep (a : model V1) (b : model V2) c :
  mmul kone kmul vmul a b = Ok c ->
  (nilp (mdata c) \/ mkeep c = undup (mkeep a ++ mkeep b)) /\
  (forall k, k \in dkeys kone (mdata c) -> kept (undup (mkeep a ++ mkeep b)) k).
Proof.
rewrite /mmul; case: ifP => // _ [<-]; set keep := undup _; set terms := flatten _.
have Ht m : List.In m terms -> exists k v, kept keep k /\ m = Mk [:: (Sym k, v)] keep (mmom a).
  rewrite /terms; elim: (mdata a) => //= kv d IH /In_cat [|]; last exact: IH.
  elim: (mdata b) => //= kw d' IH'; case: ifP => kk //=; case=> [<-|]; last exact: IH'.
  by exists (kmul (den kv.1) (den kw.1)), (vmul kv.2 kw.2); rewrite construct1.
case TT: terms Ht => [|t ts] Ht; first by split=> //; left.
have [|k0 [v0 [kk0 Et]]] := Ht t; first by left.
split; first (right; rewrite msum_keep ?Et //).
- by move=> m Hm; have [|k1 [v1 [_ ->]]] := Ht m; first by right.
apply: dkeys_msum; first by move=> k; rewrite Et inE => /eqP ->.
move=> m k Hm; have [|k1 [v1 [kk1 ->]]] := Ht m; first by right.
by rewrite inE => /eqP ->.
Qed.

Lemma mmul_keep_nil (a : model V1) (b : model V2) c :
  mkeep a = [::] -> mkeep b = [::] -> mmul kone kmul vmul a b = Ok c -> mkeep c = [::].
Proof.
move=> ka kb; rewrite /mmul; case: ifP => // _ [<-]; rewrite ka kb /=; set terms := flatten _.
have Ht m : List.In m terms -> mkeep m = [::].
  rewrite /terms; elim: (mdata a) => //= kv d IH /In_cat [|]; last exact: IH.
  by elim: (mdata b) => //= kw d' IH' [<-|]; last exact: IH'.
case TT: terms Ht => [|t ts] Ht; first by rewrite /= ka.
have Et : mkeep t = [::] by apply: Ht; left.
by rewrite msum_keep ?Et // => m Hm; apply: Ht; right.
Qed.

Lemma mmul_sym_keep (s : K) (m : model V1) :
  mkeep (mmul_sym kone kmul s m) = mkeep m /\
  (forall k, k \in dkeys kone (mdata (mmul_sym kone kmul s m)) -> kept (mkeep m) k).
Proof.
rewrite /mmul_sym; set l := map _ _.
have Ht x : List.In x l -> exists k v, kept (mkeep m) k /\ x = Mk [:: (Sym k, v)] (mkeep m) (mmom m).
  rewrite /l; elim: (mdata m) => //= kv d IH; case: ifP => kk //=; case=> [<-|]; last exact: IH.
  by exists (kmul (den kv.1) s), kv.2; rewrite construct1.
split; first by rewrite msum_keep // => x /Ht [k [v [_ ->]]].
apply: dkeys_msum => // x k /Ht [k1 [v1 [kk1 ->]]].
by rewrite inE => /eqP ->.
Qed.

Lemma construct_keep (V : zmodType) (I : Type) (norm : I -> K) (input : seq (I * V)) keep (mom : Mom) :
  forall k, k \in dkeys kone (mdata (construct kone norm input keep mom)) -> kept keep k.
Proof.
rewrite /construct /= /dict_of => k.
set l := map _ _.
have Hl kv : List.In kv l -> kept keep (den kv.1).
  by rewrite {}/l; elim: input => //= iv d IH; case: ifP => kk //= [<-|/IH].
have : forall k, k \in dkeys kone ([::] : seq (pykey K * V)) -> kept keep k by [].
elim: l [::] Hl => [|kv l IH] d Hl /= Hd; first exact: Hd.
apply: IH => [kv' H|k']; first by apply: Hl; right.
rewrite mem_dkeys_set => /orP[/Hd //|/eqP ->].
by apply: Hl; left.
Qed.
End Keep.
