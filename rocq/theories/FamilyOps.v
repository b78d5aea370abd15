(* Symmetry actions are real-linear operations on Models. *)
From mathcomp Require Import all_ssreflect all_algebra.
From mathcomp Require Import complex.
From Verif Require Import Prelude ModelCore ModelProofs PropModel PGE PGEProofs Keys KeysProofs PropApply PropCGG LinSpan NullSpec PropLinalg Family FamilyProofs PropFamily.

Set Implicit Arguments.
Unset Strict Implicit.
Unset Printing Implicit Defensive.
Import GRing.Theory Num.Theory.
Local Open Scope ring_scope.
Local Open Scope complex_scope.

Section Ops.
Variables (F : rcfType) (n1 n2 : nat) (K : eqType) (kone : K) (Mom : eqType) (mom : Mom).
Local Notation C := F[i].
Local Notation V := [lmodType C of 'M[C]_(n1, n2)].
Local Notation model := (model K Mom V).
Local Notation coef m k := (dget kone (mdata m) (Sym k)).
Local Notation fcoef := (fcoef kone).
Local Notation is_comb := (is_comb kone).
Local Notation good := (good kone mom).
Local Notation meval := (meval kone).
Implicit Types (fam : seq model) (m x y : model).

Definition rlin (c : F) x y m : Prop := forall k, coef m k = c%:C *: coef x k + coef y k.
Definition lop (f : model -> res model) : Prop :=
  (forall m, good m -> exists m', f m = Ok m' /\ good m') /\
  forall c x y m x' y' m', good x -> good y -> good m -> rlin c x y m ->
    f x = Ok x' -> f y = Ok y' -> f m = Ok m' -> rlin c x' y' m'.

Lemma coefE m k : wf_model kone m -> coef m k = meval (fun k' => (k' == k)%:R) m.
Proof.
move=> w; set ks := undup (k :: dkeys kone (mdata m)).
have u : uniq ks by apply: undup_uniq.
have s : {subset dkeys kone (mdata m) <= ks} by move=> x; rewrite mem_undup inE orbC => ->.
have kk : k \in ks by rewrite mem_undup mem_head.
rewrite mevalE (deval_keys _ w u s) (bigD1_seq k) //=.
by rewrite eqxx scale1r big1 ?addr0 // => k' /negPf ->; rewrite scale0r.
Qed.

Lemma rlin_eval c x y m ev : good x -> good y -> good m -> rlin c x y m ->
  meval ev m = c%:C *: meval ev x + meval ev y.
Proof.
move=> [wx _ _] [wy _ _] [wm _ _] H; rewrite !mevalE.
pose ks := undup (dkeys kone (mdata m) ++ dkeys kone (mdata x) ++ dkeys kone (mdata y)).
have u : uniq ks by apply: undup_uniq.
have s1 : {subset dkeys kone (mdata m) <= ks} by move=> k; rewrite mem_undup !mem_cat => ->.
have s2 : {subset dkeys kone (mdata x) <= ks} by move=> k; rewrite mem_undup !mem_cat => ->; rewrite orbT.
have s3 : {subset dkeys kone (mdata y) <= ks} by move=> k; rewrite mem_undup !mem_cat => ->; rewrite !orbT.
rewrite (deval_keys _ wm u s1) (deval_keys _ wx u s2) (deval_keys _ wy u s3) scaler_sumr -big_split /=.
by apply: eq_bigr => k _; rewrite H scalerDr !scalerA mulrC.
Qed.

Lemma lop_eval f (Phi : (K -> C) -> K -> C) (L : V -> V) :
  (forall (c : F) u v, L (c%:C *: u + v) = c%:C *: L u + L v) ->
  (forall m, good m -> exists m', [/\ f m = Ok m', good m' & forall ev, meval ev m' = L (meval (Phi ev) m)]) ->
  lop f.
Proof.
move=> Llin H; split=> [m /H [m' [E g _]]|c x y m x' y' m' gx gy gm r]; first by exists m'.
have [x1 [-> gx' ex]] := H x gx; have [y1 [-> gy' ey]] := H y gy; have [z1 [-> gm' em]] := H m gm.
case=> <- [<-] [<-] k; case: gx' gy' gm' => wx _ _ [wy _ _] [wm _ _].
by rewrite (coefE k wm) (coefE k wx) (coefE k wy) em ex ey (rlin_eval _ gx gy gm r) Llin.
Qed.

Lemma lop_id : lop Ok. 
Proof. by split=> [m g|c x y m x' y' m' _ _ _ r [<-] [<-] [<-]] //; exists m. Qed.
Lemma lop_bind f g : lop f -> lop g -> lop (fun m => do r <- f m; g r).
Proof.
move=> [tf lf] [tg lg]; split=> [m gm|c x y m x' y' m' gx gy gm r].
  by have [m' [-> gm']] := tf m gm; apply: tg.
have [x1 [ex gx1]] := tf x gx; have [y1 [ey gy1]] := tf y gy; have [z1 [ez gz1]] := tf m gm.
rewrite ex ey ez /= => h1 h2 h3; exact: (lg _ _ _ _ _ _ _ gx1 gy1 gz1 (lf _ _ _ _ _ _ _ gx gy gm r ex ey ez) h1 h2 h3).
Qed.
Lemma eq_lop f g : (forall m, good m -> f m = g m) -> lop f -> lop g.
Proof.
move=> E [tf lf]; split=> [m gm|c x y m x' y' m' gx gy gm]; first by rewrite -E //; apply: tf.
by rewrite -!E //; apply: lf.
Qed.

Lemma lop_zero : lop (fun m => Ok (zeros_like V m)).
Proof.
split=> [m [w s mo]|c x y m x' y' m' _ _ _ _ [<-] [<-] [<-] k]; first by exists (zeros_like V m).
by rewrite /= scaler0 addr0.
Qed.

Lemma lop_add f g : lop f -> lop g -> lop (fun m => do a <- f m; do b <- g m; madd kone a b).
Proof.
move=> [tf lf] [tg lg]; split=> [m gm|c x y m x' y' m' gx gy gm r].
  have [a [-> [wa sa ma]]] := tf m gm; have [b [-> [wb sb mb]]] := tg m gm; rewrite /=.
  have mab : mmom a = mmom b by rewrite ma mb.
  have [z E] := madd_ok kone mab; exists z; split=> //; split.
  - exact: madd_wf E.
  - by have := all_sym_madd' kone sa sb; rewrite /madd' E.
  - by rewrite (madd_mom mab E).
have [x1 [ex _]] := tf x gx; have [y1 [ey _]] := tf y gy; have [z1 [ez _]] := tf m gm.
have [x2 [ex2 _]] := tg x gx; have [y2 [ey2 _]] := tg y gy; have [z2 [ez2 _]] := tg m gm.
rewrite ex ey ez ex2 ey2 ez2 /= => h1 h2 h3 k.
rewrite (madd_coef k h1) (madd_coef k h2) (madd_coef k h3).
rewrite (lf _ _ _ _ _ _ _ gx gy gm r ex ey ez) (lg _ _ _ _ _ _ _ gx gy gm r ex2 ey2 ez2).
by rewrite scalerDr addrACA.
Qed.

Lemma lop_mmap (f : V -> V) : (forall u v, f (u + v) = f u + f v) -> (forall (c : C) u, f (c *: u) = c *: f u) ->
  lop (fun m => Ok (mmap (W := V) f m)).
Proof.
move=> fD fZ; apply: (lop_eval (Phi := id) (L := f)) => [c u v|m [w s mo]]; first by rewrite fD fZ.
exists (mmap (W := V) f m); split=> //; last by move=> ev; rewrite eval_mmap.
by split; rewrite ?mmap_wf ?mmap_sym.
Qed.
Lemma lop_neg : lop (fun m => Ok (mneg m)).
Proof.
apply: (lop_eval (Phi := id) (L := fun v => - v)) => [c u v|m [w s mo]]; first by rewrite opprD scalerN.
exists (mneg m); split=> //; last by move=> ev; rewrite mneg_eval.
by split; rewrite ?mneg_wf ?mneg_sym.
Qed.
Lemma lop_scale (z : C) : lop (fun m => Ok (mscale z m)).
Proof.
apply: (lop_eval (Phi := id) (L := fun v => z *: v)) => [c u v|m g].
  by rewrite scalerDr !scalerA mulrC.
exists (mscale z m); split=> //; first exact: good_scale.
by move=> ev; rewrite mscale_eval // => k; rewrite mulrC.
Qed.

Lemma lop_transform (func : K -> seq (C * K)) : lop (transform_symbolic kone func).
Proof.
apply: (lop_eval (Phi := fun (ev : K -> C) (k : K) => \sum_(ck <- func k) ev ck.2 * ck.1) (L := fun v => v)) => // m [w s mo].
have [m' [E w' mo' _]] := transform_props kone (fun=> 0) func s.
exists m'; split=> //; first by split; rewrite ?mo' //; apply: transform_sym E.
move=> ev; have [m'' [E' _ _]] := transform_props kone ev func s.
have -> : m'' = m' by move: E'; rewrite E => -[].
by move=> ->; rewrite /ModelCore.meval; apply: eq_bigr => kv _; rewrite -scaler_suml.
Qed.

Lemma lop_linop f : lop f -> lin_op kone mom f.
Proof.
move=> [tf lf]; split=> [m /tf [m' [-> _]]|]; first by exists m'.
elim=> [|x fam IH] fam' c m m' gf gm Hm.
  case=> <- em k; have := lf 1 m m m m' m' m' gm gm gm.
  have r : rlin 1 m m m by move=> k'; rewrite Hm fcoef_nil scaler0 addr0.
  move=> /(_ r em em em k); rewrite fcoef_nil scale1r => /eqP.
  by rewrite -[X in X == _]addr0 (inj_eq (addrI _)) eq_sym => /eqP.
move=> /=; case ex: (f x) => [x'|] //=; case ef: (mapM f fam) => [fm|] //= [<-] em k.
have gx : good x by apply: gf; left.
have gf' y : List.In y fam -> good y by move=> h; apply: gf; right.
have [y [gy Hy]] : exists y, good y /\ is_comb fam (fun j => c j.+1) y.
  case: (posnP (size fam)) => [/size0nil ->|n0].
    by exists (Mk [::] [::] mom : model); split=> // k'; rewrite fcoef_nil.
  have [y [_ gy cy]] := combine_row (\row_(j < size fam) c j.+1) n0 gf'.
  by exists y; split=> // k'; rewrite cy -(fcoef_row kone fam (fun j => c j.+1)).
have [y' [ey gy']] := tf y gy.
have r : rlin (c 0%N) x y m by move=> k'; rewrite Hm fcoef_cons Hy.
by rewrite (lf _ _ _ _ _ _ _ gx gy gm r ex ey em) fcoef_cons (IH fm _ y y' gf' gy Hy ef ey).
Qed.

Lemma lop_conj (kc : K -> K) : involutive kc -> lop (mconj kone kc (@mxconj F n1 n2)).
Proof.
move=> kcK; apply: (lop_eval (Phi := fun (ev : K -> C) (k : K) => conjc (ev (kc k))) (L := fun v => mxconj v)) => [c u v|m [w s mo]].
  by rewrite mxconjD mxconjZ realc_conj.
have [Hc [E [s' w'] _ _]] := @C14_conj F K kone Mom kc kcK n1 n2 m s w.
have E' := mconj_props (@mxconj F n1 n2) (inv_inj kcK) s w.
exists Hc; split=> //; first by split=> //; move: E; rewrite E' => -[<-].
move=> ev; move: E; rewrite E' => -[<-]; rewrite /ModelCore.meval /= big_map.
elim: (mdata m) => [|kv d IH]; first by rewrite !big_nil mxconj0.
by rewrite !big_cons mxconjD mxconjZ conjcK IH.
Qed.
End Ops.

Section Apply.
Variables (F : rcfType) (d n : nat) (P : eqType) (pone : P) (pmul : P -> P -> P) (pc : P -> P).
Hypothesis pcK : involutive pc.
Variable (Mom : eqType) (mom : Mom).
Local Notation C := F[i].
Local Notation pge := (pge F d n).
Local Notation key := (key F d P).
Local Notation bkey := (bkey F d P).
Local Notation mat := [lmodType C of 'M[C]_n.+1].
Local Notation kmodel := (model [eqType of key] Mom mat).
Local Notation bmodel := (model [eqType of bkey] Mom mat).
Let ko : [eqType of key] := kone F d pone.
Let bo : [eqType of bkey] := bone F d pone.

Lemma lop_conjugate (K : eqType) (k1 : K) (oU : option 'M[C]_n.+1) :
  lop k1 mom (fun m : model K Mom mat => Ok (conjugate_by oU m)).
Proof.
case: oU => [U|]; last exact: lop_id.
have l1 : lop k1 mom (fun m : model K Mom mat => Ok (mmap (W := mat) (fun A => U *m A) m)).
  apply: (lop_mmap _ _ (f := fun A : mat => U *m A : mat)) => [u v|c u]; first by rewrite mulmxDr.
  by rewrite -scalemxAr.
have l2 : lop k1 mom (fun m : model K Mom mat => Ok (mmap (W := mat) (fun A => A *m dagger U) m)).
  apply: (lop_mmap _ _ (f := fun A : mat => A *m dagger U : mat)) => [u v|c u]; first by rewrite mulmxDl.
  by rewrite -scalemxAl.
exact: lop_bind l1 l2.
Qed.

Lemma pge_apply_lop (g : pge) : lop ko mom (pge_apply pone pc g : kmodel -> _).
Proof.
pose f1 : kmodel -> res kmodel := rotate_momenta pone (if pconj g then - invmx (pR g) else invmx (pR g)).
pose f2 : kmodel -> res kmodel := fun r => if pconj g then mconj ko (kconj pc : key -> key) (@mxconj F n.+1 n.+1) r else Ok r.
pose f3 : kmodel -> res kmodel := fun r => Ok (if panti g then mneg r else r).
have l1 : lop ko mom f1 by apply: lop_transform.
have l2 : lop ko mom f2 by rewrite /f2; case: (pconj g); [apply: lop_conj; apply: kconjK|apply: lop_id].
have l3 : lop ko mom f3 by rewrite /f3; case: (panti g); [apply: lop_neg|apply: lop_id].
apply: eq_lop (lop_bind l1 (lop_bind l2 (lop_bind l3 (lop_conjugate ko (pU g))))) => m _.
by rewrite /pge_apply.
Qed.

Lemma bloch_rotate_lop (R : 'M[F]_d) : R \in unitmx -> lop bo mom (fun m : bmodel => Ok (bloch_rotate pone R m)).
Proof.
move=> u; apply: (lop_eval (Phi := fun (ev : [eqType of bkey] -> C) (k : [eqType of bkey]) => ev (brot R k)) (L := fun v => v)) => // m [w s mo].
have [w' s' _] := bloch_rotate_props pmul pc u w.
eexists; split; [reflexivity|by split|].
move=> ev; rewrite /bloch_rotate -/bo.
have un : uniq (dkeys bo [seq (Sym (brot R (den bo kv.1)), kv.2) | kv <- mdata m]).
  rewrite /dkeys -map_comp [map _ _](@map_comp _ _ _ (brot R : bkey -> bkey) (fun kv => den bo kv.1)).
  by rewrite map_inj_uniq //; apply: brot_inj.
by rewrite dict_of_uniq // /ModelCore.meval /= big_map.
Qed.

Lemma pge_apply_bloch_lop (g : pge) : pR g \in unitmx -> lop bo mom (pge_apply_bloch pone pc g : bmodel -> _).
Proof.
move=> u; pose f1 : bmodel -> res bmodel := fun m => Ok (bloch_rotate pone (if pconj g then - invmx (pR g) else invmx (pR g)) m).
pose f2 : bmodel -> res bmodel := fun r => if pconj g then mconj bo (bconj pc : bkey -> bkey) (@mxconj F n.+1 n.+1) r else Ok r.
pose f3 : bmodel -> res bmodel := fun r => Ok (if panti g then mneg r else r).
have l1 : lop bo mom f1.
  apply: bloch_rotate_lop; case: (pconj g); last by rewrite unitmx_inv.
  by rewrite -scaleN1r unitmxZ ?unitrN1 // unitmx_inv.
have l2 : lop bo mom f2 by rewrite /f2; case: (pconj g); [apply: lop_conj; apply: bconjK|apply: lop_id].
have l3 : lop bo mom f3 by rewrite /f3; case: (panti g); [apply: lop_neg|apply: lop_id].
apply: eq_lop (lop_bind l1 (lop_bind l2 (lop_bind l3 (lop_conjugate bo (pU g))))) => m _.
by rewrite /pge_apply_bloch.
Qed.

Lemma cgg_apply_lop (R : option 'M[C]_d) (U : option 'M[C]_n.+1) : lop ko mom (cgg_apply pone R U : kmodel -> _).
Proof.
rewrite /cgg_apply -/ko.
set oR := if R is Some R' then _ else _; set oU := if U is Some U' then _ else _.
pose f1 : kmodel -> res kmodel := fun m => if oR is Some R' then
      do t <- transform_symbolic ko (kder R') m; madd ko (zeros_like mat m) (mscale 'i t)
    else Ok (zeros_like mat m).
have l1 : lop ko mom f1.
  rewrite /f1; case: (oR) => [R'|]; last exact: lop_zero.
  have l0 : lop ko mom (fun m : kmodel => Ok (zeros_like mat m)) by apply: lop_zero.
  have lt : lop ko mom (transform_symbolic ko (kder R') : kmodel -> _) by apply: lop_transform.
  have ls : lop ko mom (fun m : kmodel => Ok (mscale 'i m)) by apply: lop_scale.
  apply: eq_lop (lop_add l0 (lop_bind lt ls)) => m _ /=.
  by case: transform_symbolic.
case: (oU) => [U'|]; last first.
  by apply: eq_lop l1 => m _; rewrite -/(f1 m); case: (f1 m).
have l2 : lop ko mom (fun m : kmodel => Ok (mmap (W := mat) (fun A => A *m ('i *: U')) m)).
  apply: (lop_mmap _ _ (f := fun A : mat => A *m ('i *: U') : mat)) => [u v|c u]; first by rewrite mulmxDl.
  by rewrite -scalemxAl.
have l3 : lop ko mom (fun m : kmodel => Ok (mmap (W := mat) (fun A => (- 'i *: U') *m A) m)).
  apply: (lop_mmap _ _ (f := fun A : mat => (- 'i *: U') *m A : mat)) => [u v|c u]; first by rewrite mulmxDr.
  by rewrite -scalemxAr.
by apply: eq_lop (lop_add l1 (lop_add l2 l3)) => m _; rewrite -/(f1 m); case: (f1 m).
Qed.
End Apply.
