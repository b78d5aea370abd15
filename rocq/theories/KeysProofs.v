(* Proofs about Keys.v: evaluation of rotated, conjugated and differentiated keys. *)
From mathcomp Require Import all_ssreflect all_algebra.
From mathcomp Require Import complex.
From Verif Require Import Prelude ModelCore ModelProofs PGE PGEProofs Keys.

Set Implicit Arguments.
Unset Strict Implicit.
Unset Printing Implicit Defensive.
Import GRing.Theory Num.Theory.
Local Open Scope ring_scope.
Local Open Scope complex_scope.

(* ---- symbolic keys are preserved ---- *)
Section AllSym.
Variables (K : eqType) (kone : K) (C : ringType) (Mom : eqType) (V : lmodType C).
Local Notation model := (model K Mom V).
Local Notation issym := (fun kv : pykey K * V => if kv.1 is Sym _ then true else false).

Lemma all_sym_add (a b : seq (pykey K * V)) : all issym a -> all issym b -> all issym (add_data kone a b).
Proof.
move=> ha hb; rewrite /add_data !all_cat all_map.
have sf (d : seq (pykey K * V)) p : all issym d -> all issym [seq x <- d | p x].
  by elim: d => //= x d IH /andP[h1 h2]; case: ifP => _ //=; rewrite ?h1 IH.
by apply/and3P; split; [exact: (sf a)|exact: (sf a)|exact: (sf b)].
Qed.

Lemma all_sym_madd' (a b : model) : all_sym a -> all_sym b -> all_sym (madd' kone a b).
Proof.
rewrite /madd' /madd => ha hb; do 3! case: ifP => // _.
exact: all_sym_add.
Qed.

Lemma all_sym_msum (s : model) l : all_sym s -> (forall m, List.In m l -> all_sym m) ->
  all_sym (msum kone s l).
Proof.
rewrite /msum; elim: l s => //= m l IH s hs hl; apply: IH.
  by apply: all_sym_madd' => //; apply: hl; left.
by move=> m' h; apply: hl; right.
Qed.

Lemma all_sym_set (d : seq (pykey K * V)) k v :
  all issym d -> all issym (dset kone d (Sym k) v).
Proof. by elim: d => //= kv d IH /andP[h1 h2]; case: ifP => _ /=; rewrite h1 ?IH. Qed.

Lemma all_sym_normalize (I : Type) (expand : I -> seq (C * K)) (input : seq (I * V)) :
  all issym (normalize_data kone expand input).
Proof.
have sf (d : seq (pykey K * V)) p : all issym d -> all issym [seq x <- d | p x].
  by elim: d => //= x d IH /andP[h1 h2]; case: ifP => _ //=; rewrite ?h1 IH.
rewrite /normalize_data; apply: sf.
have : all issym ([::] : seq (pykey K * V)) by [].
elim: input [::] => //= kv l IH d hd; apply: IH.
by elim: (expand kv.1) d hd => //= ck r IH' d hd; apply: IH'; apply: all_sym_set.
Qed.

Lemma transform_sym (func : K -> seq (C * K)) (m m' : model) :
  transform_symbolic kone func m = Ok m' -> all_sym m'.
Proof.
rewrite /transform_symbolic; case: ifP => // _ [<-]; apply: all_sym_msum => // x.
by elim: (mdata m) => //= kv l IH [<-|/IH //]; apply: all_sym_normalize.
Qed.

Lemma mneg_sym (m : model) : all_sym (mneg m) = all_sym m.
Proof. by rewrite /all_sym /= all_map. Qed.
Lemma mmap_sym (W : lmodType C) (f : V -> W) (m : model) : all_sym (mmap f m) = all_sym m.
Proof. by rewrite /all_sym /= all_map. Qed.
Lemma mmap_wf (W : lmodType C) (f : V -> W) (m : model) : wf_model kone (mmap f m) = wf_model kone m.
Proof. by rewrite /wf_model /wf_dict /dkeys /= -map_comp. Qed.
Lemma mscale_sym (s : C) (m : model) : all_sym (mscale s m) = all_sym m.
Proof. by rewrite /all_sym /= all_map. Qed.
Lemma mscale_wf (s : C) (m : model) : wf_model kone (mscale s m) = wf_model kone m.
Proof. by rewrite /wf_model /wf_dict /dkeys /= -map_comp. Qed.

Lemma eval_mmap (W : lmodType C) (f : V -> W) (m : model) (ev : K -> C) :
  (forall v v', f (v + v') = f v + f v') -> (forall s v, f (s *: v) = s *: f v) ->
  meval kone ev (mmap f m) = f (meval kone ev m).
Proof.
move=> fD fZ; have f0 : f 0 = 0 by rewrite -[0 in LHS](scale0r 0) fZ scale0r.
rewrite /meval /= big_map (big_morph f fD f0).
by apply: eq_bigr => kv _; rewrite fZ.
Qed.
End AllSym.

Section Keys.
Variables (F : rcfType) (d : nat) (P : eqType) (pone : P) (pmul : P -> P -> P) (pc : P -> P).
Local Notation C := F[i].
Local Notation key := (key F d P).
Local Notation bkey := (bkey F d P).
Local Notation pw := (pw d).

(* values of the momenta, the phase function and the other symbols *)
Record assignment := Assignment {
  as_k : 'cV[F]_d;
  as_cis : F -> C;
  as_par : P -> C;
  as_cis0 : as_cis 0 = 1;
  as_cisD : forall x y, as_cis (x + y) = as_cis x * as_cis y;
  as_cisN : forall x, conjc (as_cis x) = as_cis (- x);
  as_par1 : as_par pone = 1;
  as_parM : forall x y, as_par (pmul x y) = as_par x * as_par y;
  as_parJ : forall x, as_par (pc x) = conjc (as_par x) }.

Definition at_k (a : assignment) (k : 'cV[F]_d) : assignment :=
  @Assignment k (as_cis a) (as_par a) (as_cis0 a) (as_cisD a) (as_cisN a) (as_par1 a) (as_parM a) (as_parJ a).

Definition pev (k : 'cV[F]_d) (p : pw) : C := \prod_i (k i 0)%:C ^+ p i.
Definition kev (a : assignment) (x : key) : C :=
  pev (as_k a) (kpow x) * as_cis a ((khop x *m as_k a) 0 0) * as_par a (kpar x).
Definition bev (a : assignment) (x : bkey) : C :=
  as_cis a ((x.1 *m as_k a) 0 0) * as_par a x.2.

Lemma pev0 k : pev k (pw0 d) = 1.
Proof. by rewrite /pev big1 // => i _; rewrite ffunE expr0. Qed.
Lemma pevD k p q : pev k (pwadd p q) = pev k p * pev k q.
Proof. by rewrite /pev -big_split; apply: eq_bigr => i _; rewrite ffunE exprD. Qed.
Lemma pev_e k j : pev k (pwe j) = (k j 0)%:C.
Proof.
rewrite /pev (bigD1 j) //= ffunE eqxx expr1 big1 ?mulr1 // => i ne.
by rewrite ffunE (negPf ne) expr0.
Qed.

Lemma realc_conj (x : F) : conjc x%:C = x%:C.
Proof. by rewrite /= oppr0. Qed.

Lemma pev_conj k p : conjc (pev k p) = pev k p.
Proof.
rewrite /pev rmorph_prod; apply: eq_bigr => i _.
by rewrite rmorphX /= oppr0.
Qed.

Lemma kev_one a : kev a (kone F d pone) = 1.
Proof. by rewrite /kev /= pev0 mul0mx mxE as_cis0 as_par1 !mulr1. Qed.

Lemma kev_mul a x y : kev a (kmul pmul x y) = kev a x * kev a y.
Proof.
rewrite /kev /= pevD mulmxDl mxE as_cisD as_parM.
by rewrite [RHS]mulrACA; congr (_ * _); rewrite mulrACA.
Qed.

Lemma kev_conj a x : kev a (kconj pc x) = conjc (kev a x).
Proof. by rewrite /kev /= !rmorphM /= pev_conj as_cisN as_parJ mulNmx mxE. Qed.

Lemma kconjK : involutive pc -> involutive (kconj pc : key -> key).
Proof. by move=> pcK [[p h] q]; rewrite /kconj /= opprK pcK. Qed.

Lemma bev_mul a x y : bev a (bmul pmul x y) = bev a x * bev a y.
Proof. by rewrite /bev /= mulmxDl mxE as_cisD as_parM mulrACA. Qed.
Lemma bev_conj a x : bev a (bconj pc x) = conjc (bev a x).
Proof. by rewrite /bev /= rmorphM /= as_cisN as_parJ mulNmx mxE. Qed.
Lemma bconjK : involutive pc -> involutive (bconj pc : bkey -> bkey).
Proof. by move=> pcK [h q]; rewrite /bconj /= opprK pcK. Qed.
Lemma bev_tosympy a x : kev a (tosympy x) = bev a x.
Proof. by rewrite /kev /= pev0 mul1r. Qed.
Lemma tosympy_inj : injective (@tosympy F d P).
Proof. by move=> [h q] [h' q'] [-> ->]. Qed.

(* ---- rotations ---- *)
Definition lev (k : 'cV[F]_d) (l : seq (C * pw)) : C := \sum_(x <- l) x.1 * pev k x.2.

Lemma lev_mul k l1 l2 : lev k (lmul l1 l2) = lev k l1 * lev k l2.
Proof.
rewrite /lev big_allpairs_dep /= mulr_suml; apply: eq_bigr => x _.
rewrite mulr_sumr; apply: eq_bigr => y _ /=.
by rewrite pevD mulrACA.
Qed.
Lemma lev_pow k l n : lev k (lpow l n) = lev k l ^+ n.
Proof.
elim: n => [|n IH]; first by rewrite /lev big_seq1 /= pev0 mulr1 expr0.
by rewrite /= lev_mul IH exprS.
Qed.
Lemma lev_lin k R i : lev k (lin R i) = ((R *m k) i 0)%:C.
Proof.
rewrite /lev /lin big_map big_enum /= mxE rmorph_sum; apply: eq_bigr => j _ /=.
by rewrite pev_e rmorphM.
Qed.
Lemma lev_rotpoly k R p : lev k (rotpoly R p) = pev (R *m k) p.
Proof.
rewrite /rotpoly /pev -big_enum /=; elim: (enum _) => [|i s IH] /=.
  by rewrite big_nil /lev big_seq1 pev0 mulr1.
by rewrite big_cons lev_mul lev_pow lev_lin IH.
Qed.

Lemma kev_rot a R x :
  \sum_(ck <- krot R x) kev a ck.2 * ck.1 = kev (at_k a (R *m as_k a)) x.
Proof.
rewrite /krot big_map /= {2}/kev /= -lev_rotpoly /lev !mulr_suml.
apply: eq_bigr => -[c p] _ /=; rewrite /kev /= -mulmxA.
by rewrite mulrC !mulrA.
Qed.

Lemma bev_rot a R x : bev a (brot R x) = bev (at_k a (R *m as_k a)) x.
Proof. by rewrite /bev /= -mulmxA. Qed.

Lemma brot_inj R : R \in unitmx -> injective (brot R : bkey -> bkey).
Proof.
move=> u [h q] [h' q'] [E ->]; congr (_, _).
by rewrite -[h](mulmxK u) E mulmxK.
Qed.

(* ---- models ---- *)
Section Models.
Variables (Mom : eqType).
Let ko : [eqType of key] := kone F d pone.
Let bo : [eqType of bkey] := bone F d pone.
Local Notation kmodel := (model [eqType of key] Mom).
Local Notation bmodel := (model [eqType of bkey] Mom).
Definition ker (V : lmodType C) a (m : kmodel V) : V := meval ko (kev a) m.
Definition ber (V : lmodType C) a (m : bmodel V) : V := meval bo (bev a) m.

Lemma rotate_props (V : lmodType C) R (m : kmodel V) : all_sym m ->
  exists m', [/\ rotate_momenta pone R m = Ok m', wf_model ko m', all_sym m', mmom m' = mmom m
    & forall a, ker a m' = ker (at_k a (R *m as_k a)) m].
Proof.
move=> s; have [m' [E w mo _]] := transform_props ko (fun=> 0) (krot R) s.
exists m'; split=> //; first exact: transform_sym E.
move=> a; have [m'' [E' _ _]] := transform_props ko (kev a) (krot R) s.
have -> : m'' = m' by move: E'; rewrite E => -[].
rewrite /ker => ->; rewrite /meval; apply: eq_bigr => kv _.
by rewrite -scaler_suml kev_rot.
Qed.

Lemma bloch_rotate_props (V : lmodType C) R (m : bmodel V) : R \in unitmx ->
  wf_model bo m ->
  [/\ wf_model bo (bloch_rotate pone R m), all_sym (bloch_rotate pone R m)
    & forall a, ber a (bloch_rotate pone R m) = ber (at_k a (R *m as_k a)) m].
Proof.
move=> u w; rewrite /bloch_rotate -/bo.
have un : uniq (dkeys bo [seq (Sym (brot R (den bo kv.1)), kv.2) | kv <- mdata m]).
  rewrite /dkeys -map_comp [map _ _](@map_comp _ _ _ (brot R : bkey -> bkey) (fun kv => den bo kv.1)).
  by rewrite map_inj_uniq //; apply: brot_inj.
rewrite dict_of_uniq //; split=> //.
- by rewrite /all_sym /= all_map; elim: (mdata m).
- move=> a; rewrite /ber /meval /= big_map; apply: eq_bigr => kv _ /=.
  by rewrite bev_rot.
Qed.

Lemma tomodel_eval (V : lmodType C) (m : bmodel V) : wf_model bo m -> mkeep m = [::] ->
  [/\ wf_model ko (tomodel pone m), all_sym (tomodel pone m)
   & forall a, ker a (tomodel pone m) = ber a m].
Proof.
move=> w k0; rewrite /tomodel /construct k0 /= -/bo -/ko.
rewrite (eq_filter (a2 := predT)) // filter_predT.
have un : uniq (dkeys ko [seq (Sym (tosympy (den bo kv.1)), kv.2) | kv <- mdata m]).
  rewrite /dkeys -map_comp [map _ _](@map_comp _ _ _ (@tosympy F d P) (fun kv => den bo kv.1)).
  by rewrite map_inj_uniq //; apply: tosympy_inj.
rewrite dict_of_uniq //; split=> //; first by rewrite /all_sym /= all_map; elim: (mdata m).
by move=> a; rewrite /ker /ber /meval /= big_map; apply: eq_bigr => kv _; rewrite /= bev_tosympy.
Qed.
End Models.
End Keys.
