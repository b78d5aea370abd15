(* Symmetry actions on polynomials in the momenta do not mix total degrees. *)
From mathcomp Require Import all_ssreflect all_algebra.
From mathcomp Require Import complex.
From Verif Require Import Prelude ModelCore ModelProofs PropModel PGE PGEProofs Keys KeysProofs PropApply PropCGG LinSpan NullSpec PropLinalg Family FamilyProofs PropFamily FamilyOps PropConstrain.

Set Implicit Arguments.
Unset Strict Implicit.
Unset Printing Implicit Defensive.
Import GRing.Theory Num.Theory.
Local Open Scope ring_scope.
Local Open Scope complex_scope.

Section Graded.
Variables (F : rcfType) (d n : nat) (P : eqType) (pone : P) (pmul : P -> P -> P) (pc : P -> P).
Hypothesis pcK : involutive pc.
Hypothesis pc1 : pc pone = pone.
Variable (Mom : eqType) (mom : Mom).
Local Notation C := F[i].
Local Notation pge := (pge F d n).
Local Notation key := (key F d P).
Local Notation mat := [lmodType C of 'M[C]_n.+1].
Local Notation kmodel := (model [eqType of key] Mom mat).
Let ko : [eqType of key] := kone F d pone.
Local Notation coef m k := (dget ko (mdata m) (Sym (k : [eqType of key]))).
Local Notation good := (good ko mom).
Local Notation lop := (lop ko mom).
Local Notation meval := (meval ko).
Implicit Types (m me : kmodel) (k : key) (f : kmodel -> res kmodel).

(* total power of the momenta *)
Definition deg k : nat := (\sum_i kpow k i)%N.
(* a product of momenta only *)
Definition plain k : Prop := khop k = 0 /\ kpar k = pone.
Definition hopfree m : Prop := forall k, coef m k != 0 -> plain k.
Definition dpart (e : nat) m me : Prop := forall k, coef me k = if deg k == e then coef m k else 0.
Definition graded f : Prop := forall m m', good m -> hopfree m -> f m = Ok m' ->
  hopfree m' /\ forall e me me', good me -> dpart e m me -> f me = Ok me' -> dpart e m' me'.

Lemma meval_ext (ev ev' : key -> C) m : good m -> (forall k, coef m k != 0 -> ev k = ev' k) ->
  meval ev m = meval ev' m.
Proof.
move=> [w _ _] H; pose ks := undup (dkeys ko (mdata m)).
have u : uniq ks by apply: undup_uniq.
have s : {subset dkeys ko (mdata m) <= ks} by move=> k; rewrite mem_undup.
rewrite !mevalE !(deval_keys _ w u s); apply: eq_bigr => k _.
by case: (eqVneq (coef m k) 0) => [->|/H ->]; rewrite ?scaler0.
Qed.
Lemma meval_part e m me ev : good m -> good me -> dpart e m me ->
  meval ev me = meval (fun k : key => if deg k == e then ev k else 0) m.
Proof.
move=> [w _ _] [we _ _] H; pose ks := undup (dkeys ko (mdata m) ++ dkeys ko (mdata me)).
have u : uniq ks by apply: undup_uniq.
have s1 : {subset dkeys ko (mdata m) <= ks} by move=> k; rewrite mem_undup !mem_cat => ->.
have s2 : {subset dkeys ko (mdata me) <= ks} by move=> k; rewrite mem_undup !mem_cat orbC => ->.
rewrite !mevalE (deval_keys _ w u s1) (deval_keys _ we u s2); apply: eq_bigr => k _.
by rewrite H; case: ifP; rewrite ?scaler0 ?scale0r.
Qed.
Lemma meval0 m : good m -> meval (fun=> 0) m = 0.
Proof. by move=> g; rewrite /ModelCore.meval big1 // => kv _; rewrite scale0r. Qed.

Lemma graded_eval f (Phi : (key -> C) -> key -> C) (L : mat -> mat) : L 0 = 0 ->
  (forall m, good m -> exists m', [/\ f m = Ok m', good m' & forall ev : key -> C, meval ev m' = L (meval (Phi ev : key -> C) m)]) ->
  (forall k k' : key, plain k' -> Phi (fun x : key => (x == k)%:R) k' != 0 -> plain k /\ deg k = deg k') ->
  graded f.
Proof.
move=> L0 H G m m' gm hf em; have [m1 [em1 gm1 ev1]] := H m gm.
move: em em1; rewrite /= => -> [E]; subst m1; have [w1 _ _] := gm1.
split=> [k|e me me' gme pe].
  rewrite (coefE k w1) ev1 => nz; have [//|pk] : plain k \/ ~ plain k.
    rewrite /plain; case: (eqVneq (khop k) 0) => [h0|/eqP h]; last by right=> -[].
    by case: (eqVneq (kpar k) pone) => [h1|/eqP h]; [left|right=> -[]].
  exfalso; move: nz; rewrite (meval_ext (ev' := fun=> 0) gm) ?meval0 ?L0 ?eqxx // => k' /hf hk'.
  apply/eqP; apply: contraT => nz; by have [/pk] := G k k' hk' nz.
have [m2 [-> [w2 _ _] ev2]] := H me gme => -[<-] k.
rewrite (coefE k w2) ev2 (meval_part _ gm gme pe) (coefE k w1) ev1; case: eqP => dk.
  congr L; apply: meval_ext => // k' /hf hk'; case: eqP => // ne.
  apply/esym/eqP; apply: contraTT isT => nz; by have [_ E] := G k k' hk' nz; rewrite -E dk in ne.
rewrite (meval_ext (ev' := fun=> 0) gm) ?meval0 ?L0 // => k' /hf hk'; case: eqP => // ek.
by apply/eqP; apply: contraTT isT => nz; have [_ E] := G k k' hk' nz; rewrite E ek in dk.
Qed.

Lemma graded_id : graded Ok.
Proof. by move=> m m' gm hf [<-]; split=> // e me me' _ pe [<-]. Qed.
Lemma graded_zero : graded (fun m => Ok (zeros_like mat m)).
Proof.
by move=> m m' gm hf [<-]; split=> [k|e me me' _ _ [<-] k]; rewrite /= ?eqxx // if_same.
Qed.
Lemma graded_bind f g : lop f -> graded f -> graded g -> graded (fun m => do r <- f m; g r).
Proof.
move=> [tf _] Gf Gg m m' gm hf; have [r [er gr]] := tf m gm; have [hr pr] := Gf _ _ gm hf er.
rewrite er /= => em'; have [hm' pm'] := Gg _ _ gr hr em'; split=> // e me me' gme pe.
have [re [ere gre]] := tf me gme; rewrite ere /= => eme'.
by apply: (pm' _ _ _ gre _ eme'); apply: (pr _ _ _ gme pe ere).
Qed.
Lemma eq_graded f g : (forall m, f m = g m) -> graded f -> graded g.
Proof.
move=> E G m m' gm hf; rewrite -E => em; have [h p] := G _ _ gm hf em; split=> // e me me' gme pe.
by rewrite -E => eme; apply: (p _ _ _ gme pe eme).
Qed.
Lemma graded_add f g : lop f -> lop g -> graded f -> graded g ->
  graded (fun m => do a <- f m; do b <- g m; madd ko a b).
Proof.
move=> [tf _] [tg _] Gf Gg m m' gm hf.
have [a [ea ga]] := tf m gm; have [b [eb gb]] := tg m gm.
have [ha pa] := Gf _ _ gm hf ea; have [hb pb] := Gg _ _ gm hf eb.
rewrite ea eb /= => em'; split=> [k|e me me' gme pe].
  rewrite (madd_coef k em'); case: (eqVneq (coef a k) 0) => [->|/ha //].
  by rewrite add0r => /hb.
have [ae [eae _]] := tf me gme; have [be [ebe _]] := tg me gme; rewrite eae ebe /= => eme' k.
rewrite (madd_coef k em') (madd_coef k eme') (pa _ _ _ gme pe eae) (pb _ _ _ gme pe ebe).
by case: ifP; rewrite ?addr0.
Qed.

Lemma graded_mmap (L : mat -> mat) : L 0 = 0 -> (forall u v, L (u + v) = L u + L v) -> (forall (c : C) u, L (c *: u) = c *: L u) ->
  graded (fun m => Ok (mmap (W := mat) L m)).
Proof.
move=> L0 LD LZ; apply: (@graded_eval _ id L) => [//|m [w s mo]|k k' hk'].
  exists (mmap (W := mat) L m); split=> //; last by move=> ev; rewrite eval_mmap.
  by split; rewrite ?mmap_wf ?mmap_sym.
by case: (eqVneq k' k) => [<-|]; rewrite ?eqxx.
Qed.
Lemma graded_neg : graded (fun m => Ok (mneg m)).
Proof.
apply: (@graded_eval _ id (fun v => - v)) => [|m [w s mo]|k k' hk']; first by rewrite oppr0.
  exists (mneg m); split=> //; last by move=> ev; rewrite mneg_eval.
  by split; rewrite ?mneg_wf ?mneg_sym.
by case: (eqVneq k' k) => [<-|]; rewrite ?eqxx.
Qed.
Lemma graded_scale (z : C) : graded (fun m => Ok (mscale z m)).
Proof.
apply: (@graded_eval _ id (fun v => z *: v)) => [|m g|k k' hk']; first by rewrite scaler0.
  exists (mscale z m); split=> //; first exact: good_scale.
  by move=> ev; rewrite mscale_eval // => k; rewrite mulrC.
by case: (eqVneq k' k) => [<-|]; rewrite ?eqxx.
Qed.
Lemma graded_transform (func : key -> seq (C * key)) :
  (forall k ck, List.In ck (func k) -> plain k -> ck.1 != 0 -> plain ck.2 /\ deg ck.2 = deg k) ->
  graded (transform_symbolic ko func).
Proof.
move=> H.
apply: (@graded_eval _ (fun (ev : key -> C) (k : key) => \sum_(ck <- func k) ev ck.2 * ck.1) (fun v => v)) => // [m [w s mo]|k k' hk' nz].
  have [m' [E w' mo' _]] := transform_props ko (fun=> 0) (func : [eqType of key] -> seq (C * [eqType of key])) s.
  exists m'; split=> //; first by split; rewrite ?mo' //; apply: transform_sym E.
  move=> ev; have [m'' [E' _ _]] := transform_props ko ev (func : [eqType of key] -> seq (C * [eqType of key])) s.
  have -> : m'' = m' by move: E'; rewrite E => -[].
  by move=> ->; rewrite /ModelCore.meval; apply: eq_bigr => kv _; rewrite -scaler_suml.
have {nz} [ck hck nz] : exists2 ck, List.In ck (func k') & (ck.2 == k)%:R * ck.1 != 0.
  elim: (func k') nz => [|ck l IH]; first by rewrite big_nil eqxx.
  rewrite big_cons; case: (eqVneq ((ck.2 == k)%:R * ck.1) 0) => [->|nz _]; last by exists ck; [left|].
  by rewrite add0r => /IH [ck' h1 h2]; exists ck'; [right|].
move: nz; case: (eqVneq ck.2 k) => [<-|_]; last by rewrite mul0r eqxx.
by rewrite mul1r; apply: H.
Qed.
Lemma graded_conj : graded (mconj ko (kconj pc : key -> key) (@mxconj F n.+1 n.+1)).
Proof.
have ki : involutive (kconj pc : key -> key) by apply: kconjK.
apply: (@graded_eval _ (fun (ev : key -> C) (k : key) => conjc (ev (kconj pc k))) (fun v => mxconj v)) => [|m [w s mo]|k k' hk'].
- by rewrite mxconj0.
- have [Hc [E [s' w'] _ _]] := @C14_conj F [eqType of key] ko Mom (kconj pc) ki n.+1 n.+1 m s w.
  have E' := mconj_props (@mxconj F n.+1 n.+1) (inv_inj ki) s w.
  exists Hc; split=> //; first by split=> //; move: E; rewrite E' => -[<-].
  move=> ev; move: E; rewrite E' => -[<-]; rewrite /ModelCore.meval /= big_map.
  elim: (mdata m) => [|kv l IH]; first by rewrite !big_nil mxconj0.
  by rewrite !big_cons mxconjD mxconjZ conjcK IH.
- case: (eqVneq (kconj pc k') k) => [<- _|_]; last by rewrite rmorph0 eqxx.
  by case: hk' => h1 h2; rewrite /plain /khop /kpar /= -/(khop k') h1 oppr0 -/(kpar k') h2.
Qed.

(* the terms of a rotated monomial have its degree *)
Lemma pwadd_deg (p q : pw d) : (\sum_i pwadd p q i = \sum_i p i + \sum_i q i)%N.
Proof. by rewrite -big_split; apply: eq_bigr => i _; rewrite ffunE. Qed.
Lemma pwe_deg (j : 'I_d) : (\sum_i pwe j i = 1)%N.
Proof.
rewrite (bigD1 j) //= ffunE eqxx big1 ?addn0 // => i /negPf ij.
by rewrite ffunE ij.
Qed.
Definition homog (e : nat) (l : seq (C * pw d)) : Prop := forall x, List.In x l -> (\sum_i x.2 i = e)%N.
Lemma homog_one : homog 0 [:: (1, pw0 d)].
Proof. by move=> x [<-|//]; apply: big1 => i _; rewrite ffunE. Qed.
Lemma lmul_homog a b (l1 l2 : seq (C * pw d)) : homog a l1 -> homog b l2 -> homog (a + b) (lmul l1 l2).
Proof.
move=> h1 h2 x; rewrite /lmul.
have : List.In x [seq (x0.1 * y.1, pwadd x0.2 y.2) | x0 <- l1, y <- l2] ->
  exists x1 x2, [/\ List.In x1 l1, List.In x2 l2 & x = (x1.1 * x2.1, pwadd x1.2 x2.2)].
  clear h1 h2; elim: l1 => //= x1 l1 IH /In_cat [/In_map_iff [x2 h ->]|/IH [y1 [y2 [k1 k2 k3]]]].
    by exists x1, x2; split=> //; left.
  by exists y1, y2; split=> //; right.
by move=> H /H [x1 [x2 [i1 i2 ->]]]; rewrite /= pwadd_deg h1 // h2.
Qed.
Lemma lin_homog R i : homog 1 (lin R i : seq (C * pw d)).
Proof. by move=> x /In_map_iff [j _ ->]; rewrite /= pwe_deg. Qed.
Lemma lpow_homog e (l : seq (C * pw d)) r : homog e l -> homog (e * r) (lpow l r).
Proof.
move=> h; rewrite /lpow; elim: r => [|r IH] /=; first by rewrite muln0; apply: homog_one.
by rewrite mulnS; apply: lmul_homog.
Qed.
Lemma rotpoly_homog R (p : pw d) : homog (\sum_i p i) (rotpoly R p : seq (C * pw d)).
Proof.
rewrite -big_enum /= /rotpoly; elim: (enum _) => [|i l IH] /=; first by rewrite big_nil; apply: homog_one.
rewrite big_cons; apply: lmul_homog => //; rewrite -[X in homog X]mul1n.
by apply: lpow_homog; apply: lin_homog.
Qed.

Lemma graded_rotate R : graded (rotate_momenta pone R : kmodel -> _).
Proof.
apply: graded_transform => k ck /In_map_iff [x hx ->] [hk hp] _; split; first by rewrite /plain /khop /= -/(khop k) hk mul0mx.
by rewrite /deg /= (rotpoly_homog hx).
Qed.

Lemma graded_der R : graded (transform_symbolic ko (kder R) : kmodel -> _).
Proof.
apply: graded_transform => k ck; rewrite /kder => hin [hk hp].
have [i [j [->|->]]] : exists i j,
  ck = ((kpow k i)%:R * R i j, (pwadd (pwdec (kpow k) i) (pwe j), khop k, kpar k)) \/
  ck = ('i * (khop k 0 i)%:C * R i j, (pwadd (kpow k) (pwe j), khop k, kpar k)).
- move: hin; move: {2}(enum 'I_d) => l; elim: l => //= i l IH; rewrite flatten_cat => /In_cat [h|]; last exact: IH.
  by elim: (enum 'I_d) h => //= j l' IH' [<-|[<-|/IH' //]]; exists i, j; [left|right].
- rewrite /= => nz; split=> //; rewrite /deg /kpow /= pwadd_deg pwe_deg -/(kpow k).
  have pi0 : (0 < kpow k i)%N by rewrite lt0n; apply: contraNneq nz => ->; rewrite mul0r.
  rewrite (bigD1 i) //= [in RHS](bigD1 i) //= ffunE eqxx addnAC subnK //; congr addn.
  by apply: eq_bigr => j' /negPf ne; rewrite ffunE ne subn0.
- by rewrite /= hk mxE mulr0 mul0r eqxx.
Qed.

Lemma graded_conjugate (oU : option 'M[C]_n.+1) : graded (fun m => Ok (conjugate_by oU m)).
Proof.
case: oU => [U|]; last exact: graded_id.
have l1 : lop (fun m : kmodel => Ok (mmap (W := mat) (fun A => U *m A) m)).
  apply: (lop_mmap _ _ (f := fun A : mat => U *m A : mat)) => [u v|c u]; first by rewrite mulmxDr.
  by rewrite -scalemxAr.
have g1 : graded (fun m : kmodel => Ok (mmap (W := mat) (fun A => U *m A) m)).
  apply: (@graded_mmap (fun A : mat => U *m A : mat)) => [|u v|c u]; rewrite ?mulmx0 ?mulmxDr //.
  by rewrite -scalemxAr.
have g2 : graded (fun m : kmodel => Ok (mmap (W := mat) (fun A => A *m dagger U) m)).
  apply: (@graded_mmap (fun A : mat => A *m dagger U : mat)) => [|u v|c u]; rewrite ?mul0mx ?mulmxDl //.
  by rewrite -scalemxAl.
exact: graded_bind l1 g1 g2.
Qed.

Lemma graded_pge (g : pge) : graded (pge_apply pone pc g : kmodel -> _).
Proof.
pose f1 : kmodel -> res kmodel := rotate_momenta pone (if pconj g then - invmx (pR g) else invmx (pR g)).
pose f2 : kmodel -> res kmodel := fun r => if pconj g then mconj ko (kconj pc : key -> key) (@mxconj F n.+1 n.+1) r else Ok r.
pose f3 : kmodel -> res kmodel := fun r => Ok (if panti g then mneg r else r).
have l1 : lop f1 by apply: lop_transform.
have g1 : graded f1 by apply: graded_rotate.
have l2 : lop f2 by rewrite /f2; case: (pconj g); [apply: lop_conj; apply: kconjK|apply: lop_id].
have g2 : graded f2 by rewrite /f2; case: (pconj g); [apply: graded_conj|apply: graded_id].
have l3 : lop f3 by rewrite /f3; case: (panti g); [apply: lop_neg|apply: lop_id].
have g3 : graded f3 by rewrite /f3; case: (panti g); [apply: graded_neg|apply: graded_id].
have G := graded_bind l1 g1 (graded_bind l2 g2 (graded_bind l3 g3 (@graded_conjugate (pU g)))).
by apply: eq_graded G => m; rewrite /pge_apply.
Qed.

Lemma graded_cgg (R : option 'M[C]_d) (U : option 'M[C]_n.+1) : graded (cgg_apply pone R U : kmodel -> _).
Proof.
rewrite /cgg_apply -/ko.
set oR := if R is Some R' then _ else _; set oU := if U is Some U' then _ else _.
pose f1 : kmodel -> res kmodel := fun m => if oR is Some R' then
      do t <- transform_symbolic ko (kder R') m; madd ko (zeros_like mat m) (mscale 'i t)
    else Ok (zeros_like mat m).
have l0 : lop (fun m : kmodel => Ok (zeros_like mat m)) by apply: lop_zero.
have ls : lop (fun m : kmodel => Ok (mscale 'i m)) by apply: lop_scale.
have [l1 g1] : lop f1 /\ graded f1.
  rewrite /f1; case: (oR) => [R'|]; last by split; [exact: lop_zero|exact: graded_zero].
  have lt : lop (transform_symbolic ko (kder R') : kmodel -> _) by apply: lop_transform.
  split.
    by apply: eq_lop (lop_add l0 (lop_bind lt ls)) => m _ /=; case: transform_symbolic.
  have G := graded_add l0 (lop_bind lt ls) graded_zero (graded_bind lt (@graded_der R') (@graded_scale 'i)).
  by apply: eq_graded G => m /=; case: transform_symbolic.
case: (oU) => [U'|]; last first.
  by apply: eq_graded g1 => m; rewrite -/(f1 m); case: (f1 m).
have l2 : lop (fun m : kmodel => Ok (mmap (W := mat) (fun A => A *m ('i *: U')) m)).
  apply: (lop_mmap _ _ (f := fun A : mat => A *m ('i *: U') : mat)) => [u v|c u]; first by rewrite mulmxDl.
  by rewrite -scalemxAl.
have l3 : lop (fun m : kmodel => Ok (mmap (W := mat) (fun A => (- 'i *: U') *m A) m)).
  apply: (lop_mmap _ _ (f := fun A : mat => (- 'i *: U') *m A : mat)) => [u v|c u]; first by rewrite mulmxDr.
  by rewrite -scalemxAr.
have g2 : graded (fun m : kmodel => Ok (mmap (W := mat) (fun A => A *m ('i *: U')) m)).
  apply: (@graded_mmap (fun A : mat => A *m ('i *: U') : mat)) => [|u v|c u]; rewrite ?mul0mx ?mulmxDl //.
  by rewrite -scalemxAl.
have g3 : graded (fun m : kmodel => Ok (mmap (W := mat) (fun A => (- 'i *: U') *m A) m)).
  apply: (@graded_mmap (fun A : mat => (- 'i *: U') *m A : mat)) => [|u v|c u]; rewrite ?mulmx0 ?mulmxDr //.
  by rewrite -scalemxAr.
by apply: eq_graded (graded_add l1 (lop_add l2 l3) g1 (graded_add l2 l3 g2 g3)) => m; rewrite -/(f1 m); case: (f1 m).
Qed.

Lemma sym_apply_graded (s : symmetry F d n) : graded (sym_apply pone pc s).
Proof. by case: s => [g|R U]; [apply: graded_pge|apply: graded_cgg]. Qed.
Lemma sym_apply_lop (s : symmetry F d n) : lop (sym_apply pone pc s).
Proof. by case: s => [g|R U]; [apply: (pge_apply_lop pone pcK mom g)|apply: (cgg_apply_lop pone mom R U)]. Qed.
End Graded.
