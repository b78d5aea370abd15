(* The action of a group element on a Model at the level of coefficients.
   [meval ev m] is the sum of ev(key) * value for an arbitrary function ev of the keys; the value of g.apply(m) at ev
   is that of m at [kphi g ev] (Model) or [bphi g ev] (BlochModel), transformed as the documentation says. *)
From mathcomp Require Import all_ssreflect all_algebra.
From mathcomp Require Import complex.
From Verif Require Import Prelude ModelCore ModelProofs PropModel PGE PGEProofs Keys KeysProofs PropApply PropCGG LinSpan NullSpec PropLinalg Family FamilyProofs PropFamily FamilyOps PropConstrain GradedOps PolyExt.

Set Implicit Arguments.
Unset Strict Implicit.
Unset Printing Implicit Defensive.
Import GRing.Theory Num.Theory.
Local Open Scope ring_scope.
Local Open Scope complex_scope.

Section Lists.
Variables (F : rcfType) (d : nat).
Local Notation C := F[i].
Local Notation pw := (pw d).

(* two lists of terms with the same values agree under any function of the powers *)
Lemma terms_zero (l : seq (C * pw)) : (forall v, lev v l = 0) -> forall f : pw -> C, \sum_(x <- l) x.1 * f x.2 = 0.
Proof.
move=> H f; pose ps := undup [seq x.2 | x <- l]; pose co (p : pw) : C := \sum_(x <- l | x.2 == p) x.1.
have E (g : pw -> C) : \sum_(x <- l) x.1 * g x.2 = \sum_(p <- ps) co p * g p.
  rewrite (eq_bigr (fun p => \sum_(x <- l) if x.2 == p then x.1 * g x.2 else 0)); last first.
    by move=> p _; rewrite /co mulr_suml [LHS]big_mkcond; apply: eq_bigr => x _; case: eqP => // ->.
  rewrite exchange_big /=; apply: eq_big_seq => x xl; rewrite (bigD1_seq x.2) ?undup_uniq //=; last by rewrite mem_undup map_f.
  by rewrite eqxx big1 ?addr0 // => p /negPf pn; rewrite eq_sym pn.
rewrite E; pose N := (\max_(p <- ps) \max_i p i).+1.
have bd (p : pw) i : p \in ps -> (p i < N)%N.
  move=> kk; rewrite ltnS (big_rem p) //= leq_max; apply/orP; left.
  exact: (leq_bigmax (F := fun i => p i)).
pose ex (p : pw) := enc N (fun i => if insub i is Some j then p j else 0%N) d.
have ex_inj p p' : p \in ps -> p' \in ps -> ex p = ex p' -> p = p'.
  move=> kk kk' /enc_inj Ee; apply/ffunP => i; have := Ee _ i (ltn_ord i); rewrite valK; apply.
  by move=> j lj; rewrite insubT !bd.
pose q : {poly C} := \sum_(p <- ps) co p *: 'X^(ex p).
have q0 : q = 0.
  apply: poly_zero => t; rewrite /q horner_sum; have := H (\col_i t ^+ (N ^ i)); rewrite /lev E => Hk; rewrite -[RHS]Hk.
  apply: eq_bigr => p _; rewrite hornerZ hornerXn; congr (_ * _).
  rewrite /pev /ex /enc -rmorphX expr_sum rmorph_prod; apply: eq_bigr => i _.
  by rewrite mxE valK mulnC exprM rmorphX.
rewrite big_seq big1 // => p pp.
have := congr1 (fun r : {poly C} => r`_(ex p)) q0; rewrite coef0 /q coef_sum.
rewrite (bigD1_seq p) ?undup_uniq //= coefZ coefXn eqxx mulr1 big_seq_cond big1 ?addr0 => [->|p' /andP[pp' ne]]; first by rewrite mul0r.
by rewrite coefZ coefXn; case: eqP; rewrite ?mulr0 // => /(ex_inj _ _ pp pp') e; rewrite e eqxx in ne.
Qed.
Lemma terms_ext (l1 l2 : seq (C * pw)) : (forall v, lev v l1 = lev v l2) -> forall f : pw -> C,
  \sum_(x <- l1) x.1 * f x.2 = \sum_(x <- l2) x.1 * f x.2.
Proof.
move=> H f; apply/eqP; rewrite -subr_eq0; apply/eqP.
have := @terms_zero (l1 ++ [seq (- x.1, x.2) | x <- l2]) _ f; rewrite big_cat big_map /=.
rewrite (eq_bigr (fun x => - (x.1 * f x.2)) (r := l2)) => [|x _]; last by rewrite mulNr.
rewrite sumrN => -> // v; rewrite /lev big_cat big_map /=.
rewrite (eq_bigr (fun x => - (x.1 * pev v x.2)) (r := l2)) => [|x _]; last by rewrite mulNr.
by rewrite sumrN -!/(lev _ _) H subrr.
Qed.
(* substitution: k -> A k, then k -> B k *)
Lemma rotpoly_mul (A B : 'M[F]_d) (p : pw) (f : pw -> C) :
  \sum_(x <- rotpoly A p) x.1 * (\sum_(y <- rotpoly B x.2) y.1 * f y.2) = \sum_(z <- rotpoly (A *m B) p) z.1 * f z.2.
Proof.
pose l := [seq (x.1 * y.1, y.2) | x <- rotpoly A p, y <- rotpoly B x.2].
have El (g : pw -> C) : \sum_(x <- rotpoly A p) x.1 * (\sum_(y <- rotpoly B x.2) y.1 * g y.2) = \sum_(z <- l) z.1 * g z.2.
  rewrite /l big_allpairs_dep; apply: eq_bigr => x _; rewrite mulr_sumr; apply: eq_bigr => y _; by rewrite mulrA.
rewrite El; apply: terms_ext => v; rewrite {1}/lev -El -/(lev _ _) lev_rotpoly -mulmxA -lev_rotpoly.
by apply: eq_bigr => x _; congr (_ * _); rewrite -/(lev _ _) lev_rotpoly.
Qed.
Lemma rotpoly1 (p : pw) (f : pw -> C) : \sum_(x <- rotpoly 1%:M p) x.1 * f x.2 = f p.
Proof.
rewrite (@terms_ext _ [:: (1, p)]) ?big_seq1 ?mul1r // => v.
by rewrite lev_rotpoly mul1mx /lev big_seq1 mul1r.
Qed.
Lemma rotpoly_real (R : 'M[F]_d) (p : pw) (f : pw -> C) :
  conjc (\sum_(x <- rotpoly R p) x.1 * f x.2) = \sum_(x <- rotpoly R p) x.1 * conjc (f x.2).
Proof.
rewrite (rmorph_sum (conjc_rmorphism F)) /=.
rewrite (eq_bigr (fun x => conjc x.1 * conjc (f x.2))) => [|x _]; last by rewrite (rmorphM (conjc_rmorphism F)).
have E (g : pw -> C) : \sum_(x <- rotpoly R p) conjc x.1 * g x.2 = \sum_(x <- [seq (conjc x.1, x.2) | x <- rotpoly R p]) x.1 * g x.2.
  by rewrite big_map.
rewrite (E (fun p => conjc (f p))); apply: (@terms_ext _ _ _ (fun p => conjc (f p))) => v; rewrite {1}/lev big_map /=.
rewrite lev_rotpoly -pev_conj -lev_rotpoly /lev (rmorph_sum (conjc_rmorphism F)) /=.
by apply: eq_bigr => x _; rewrite (rmorphM (conjc_rmorphism F)) /= pev_conj.
Qed.
End Lists.

Section Action.
Variables (F : rcfType) (d n : nat) (P : eqType) (pone : P) (pc : P -> P).
Hypothesis pcK : involutive pc.
Variable (Mom : eqType) (mom : Mom).
Local Notation C := F[i].
Local Notation pge := (pge F d n).
Local Notation key := (key F d P).
Local Notation bkey := (bkey F d P).
Local Notation mat := [lmodType C of 'M[C]_n.+1].
Local Notation kmodel := (model [eqType of key] Mom mat).
Local Notation bmodel := (model [eqType of bkey] Mom mat).
Let ko : [eqType of key] := kone F d pone.
Let bo : [eqType of bkey] := bone F d pone.

Lemma meval_sum_ext (K : eqType) (k1 : K) (ev ev' : K -> C) (m : model K Mom mat) : ev =1 ev' -> meval k1 ev m = meval k1 ev' m.
Proof. by move=> e; apply: eq_bigr => kv _; rewrite e. Qed.

(* ---- generic: functions of keys, conjugated if g is antiunitary, then rotated ---- *)
Section Generic.
Variables (K : eqType) (k1 : K) (kc : K -> K) (T : 'M[F]_d -> (K -> C) -> K -> C).
Hypothesis kcK : involutive kc.
Hypothesis T_ext : forall R ev ev', ev =1 ev' -> T R ev =1 T R ev'.
Hypothesis TM : forall A B ev, T A (T B ev) =1 T (A *m B) ev.
Hypothesis T1 : forall ev, T 1%:M ev =1 ev.
Definition kbar (ev : K -> C) (k : K) : C := conjc (ev (kc k)).
Hypothesis T_bar : forall R ev, T R (kbar ev) =1 kbar (T R ev).
Definition pullmx (g : pge) : 'M[F]_d := if pconj g then - invmx (pR g) else invmx (pR g).
Definition phi (g : pge) (ev : K -> C) : K -> C := T (pullmx g) (if pconj g then kbar ev else ev).
Lemma kbarK ev : kbar (kbar ev) =1 ev. Proof. by move=> k; rewrite /kbar kcK conjcK. Qed.
Lemma kbar_ext ev ev' : ev =1 ev' -> kbar ev =1 kbar ev'. Proof. by move=> e k; rewrite /kbar e. Qed.
Lemma phi_ext g ev ev' : ev =1 ev' -> phi g ev =1 phi g ev'.
Proof. by move=> e; apply: T_ext; case: (pconj g) => //; apply: kbar_ext. Qed.
Lemma phi_bar g ev : phi g (kbar ev) =1 kbar (phi g ev).
Proof. by move=> k; rewrite /phi -T_bar; case: (pconj g). Qed.
Lemma phiM g h ev : pR g \in unitmx -> pR h \in unitmx -> phi (pge_mul g h) ev =1 phi h (phi g ev).
Proof.
move=> ug uh k; have -> : phi h (phi g ev) k = T (pullmx h) (T (pullmx g) (if pconj g (+) pconj h then kbar ev else ev)) k.
  rewrite /phi; apply: T_ext => k'; case: (pconj g); case: (pconj h) => //=; last by rewrite T_bar.
  by rewrite -T_bar; apply: T_ext; apply: kbarK.
rewrite TM /phi /= /pullmx /= invmxM //.
by case: (pconj g); case: (pconj h); rewrite /= ?mulNmx ?mulmxN ?opprK.
Qed.
Lemma phi_basic g h ev : pR g = pR h -> pconj g = pconj h -> phi g ev = phi h ev.
Proof. by rewrite /phi /pullmx => -> ->. Qed.
Lemma phi1 g ev : pR g = 1%:M -> pconj g = false -> phi g ev =1 ev.
Proof. by rewrite /phi /pullmx => -> -> k; rewrite /= invmx1 T1. Qed.
Lemma apply_tail (g : pge) (r : model K Mom mat) : good k1 mom r ->
  exists m', [/\ (do r' <- (if pconj g then mconj k1 kc (@mxconj F n.+1 n.+1) r else Ok r); Ok (conjugate_by (pU g) (if panti g then mneg r' else r'))) = Ok m',
    good k1 mom m' & forall ev, meval k1 ev m' = act g (meval k1 (if pconj g then kbar ev else ev) r)].
Proof.
move=> [w s mo].
have [r' [-> w2 s2 m2 e2]] : exists r', [/\ (if pconj g then mconj k1 kc (@mxconj F n.+1 n.+1) r else Ok r) = Ok r',
      wf_model k1 r', all_sym r', mmom r' = mmom r & forall ev, meval k1 ev r' = PGE.cj (pconj g) (meval k1 (if pconj g then kbar ev else ev) r)].
  case: (pconj g); last by exists r.
  have [Hc [E [s2 w2] _ _]] := @C14_conj F K k1 Mom kc kcK n.+1 n.+1 r s w.
  have E' := mconj_props (@mxconj F n.+1 n.+1) (inv_inj kcK) s w.
  exists Hc; split=> //; first by move: E; rewrite E' => -[<-].
  move=> ev; move: E; rewrite E' => -[<-]; rewrite /ModelCore.meval /= big_map.
  elim: (mdata r) => [|kv l IH]; first by rewrite !big_nil mxconj0.
  by rewrite !big_cons mxconjD mxconjZ /kbar conjcK IH.
rewrite [bind _ _]/=; eexists; split; first reflexivity.
  split; first by rewrite conjugate_by_wf; case: (panti g); rewrite ?mneg_wf.
    by rewrite conjugate_by_sym; case: (panti g); rewrite ?mneg_sym.
  by rewrite conjugate_by_mom; case: (panti g); rewrite /= m2 mo.
move=> ev; rewrite conjugate_by_eval /act; congr sandwich.
have -> : meval k1 ev (if panti g then mneg r' else r') = (if panti g then -1 else 1) *: meval k1 ev r'.
  by case: (panti g); rewrite ?mneg_eval ?scaleN1r ?scale1r.
by rewrite e2.
Qed.
End Generic.

(* ---- keys of a Model ---- *)
Definition krotT (R : 'M[F]_d) (ev : key -> C) (k : key) : C := \sum_(ck <- krot R k) ev ck.2 * ck.1.
Lemma krotTE R ev k : krotT R ev k = \sum_(x <- rotpoly R (kpow k)) x.1 * ev (x.2, khop k *m R, kpar k).
Proof. by rewrite /krotT /krot big_map; apply: eq_bigr => x _; rewrite /= mulrC. Qed.
Lemma krotT_ext R ev ev' : ev =1 ev' -> krotT R ev =1 krotT R ev'.
Proof. by move=> e k; apply: eq_bigr => x _; rewrite e. Qed.
Lemma krotTM A B ev : krotT A (krotT B ev) =1 krotT (A *m B) ev.
Proof.
move=> k; rewrite !krotTE -[RHS](rotpoly_mul A B (kpow k) (fun p => ev (p, khop k *m (A *m B), kpar k))).
by apply: eq_bigr => x _; congr (_ * _); rewrite krotTE /= mulmxA.
Qed.
Lemma krotT1 ev : krotT 1%:M ev =1 ev.
Proof. by case=> [[p h] q]; rewrite krotTE (rotpoly1 _ (fun p => ev (p, _, _))) /= mulmx1. Qed.
Lemma krotT_bar R ev : krotT R (kbar (kconj pc : key -> key) ev) =1 kbar (kconj pc : key -> key) (krotT R ev).
Proof.
move=> k; rewrite /kbar !krotTE (rotpoly_real R (kpow k) (fun p => ev (p, _, _))); apply: eq_bigr => x _.
by rewrite /kconj /= mulNmx.
Qed.
Definition kphi := phi (kconj pc : key -> key) krotT.
Lemma kapply_eval g (m : kmodel) : good ko mom m ->
  exists m', [/\ pge_apply pone pc g m = Ok m', good ko mom m' & forall ev, meval ko ev m' = act g (meval ko (kphi g ev) m)].
Proof.
move=> [w s mo]; rewrite /pge_apply -/ko -/(pullmx g).
have [r [E w1 mo1 _]] := transform_props ko (fun=> 0) (krot (pullmx g)) s.
have e1 ev : meval ko ev r = meval ko (krotT (pullmx g) ev) m.
  have [m'' [E' _ _]] := transform_props ko ev (krot (pullmx g)) s.
  have -> : m'' = r by move: E'; rewrite E => -[].
  by move=> ->; apply: eq_bigr => kv _; rewrite -scaler_suml.
have gr : good ko mom r by split; rewrite ?mo1 //; apply: transform_sym E.
rewrite /rotate_momenta -/ko E [bind (Ok r) _]/=.
have [m' [E' g' e']] := apply_tail (kconjK pcK) g gr; exists m'; split=> // ev.
by rewrite e' e1.
Qed.

(* ---- keys of a BlochModel ---- *)
Definition brotT (R : 'M[F]_d) (ev : bkey -> C) (k : bkey) : C := ev (brot R k).
Lemma brotT_ext R ev ev' : ev =1 ev' -> brotT R ev =1 brotT R ev'. Proof. by move=> e k; rewrite /brotT e. Qed.
Lemma brotTM A B ev : brotT A (brotT B ev) =1 brotT (A *m B) ev.
Proof. by move=> k; rewrite /brotT /brot /= mulmxA. Qed.
Lemma brotT1 ev : brotT 1%:M ev =1 ev.
Proof. by case=> [h q]; rewrite /brotT /brot /= mulmx1. Qed.
Lemma brotT_bar R ev : brotT R (kbar (bconj pc : bkey -> bkey) ev) =1 kbar (bconj pc : bkey -> bkey) (brotT R ev).
Proof. by case=> [h q]; rewrite /brotT /kbar /brot /bconj /= mulNmx. Qed.
Definition bphi := phi (bconj pc : bkey -> bkey) brotT.
Lemma bapply_eval g (m : bmodel) : pR g \in unitmx -> good bo mom m ->
  exists m', [/\ pge_apply_bloch pone pc g m = Ok m', good bo mom m' & forall ev, meval bo ev m' = act g (meval bo (bphi g ev) m)].
Proof.
move=> u [w s mo]; rewrite /pge_apply_bloch -/bo -/(pullmx g); set r := bloch_rotate _ _ _.
have uR : pullmx g \in unitmx.
  rewrite /pullmx; case: (pconj g); last by rewrite unitmx_inv.
  by rewrite -scaleN1r unitmxZ ?unitmx_inv // unitrN unitr1.
have un : uniq (dkeys bo [seq (Sym (brot (pullmx g) (den bo kv.1)), kv.2) | kv <- mdata m]).
  rewrite /dkeys -map_comp [map _ _](@map_comp _ _ _ (brot (pullmx g) : bkey -> bkey) (fun kv => den bo kv.1)).
  by rewrite map_inj_uniq //; apply: brot_inj.
have rE : r = Mk [seq (Sym (brot (pullmx g) (den bo kv.1)), kv.2) | kv <- mdata m] (mkeep m) (mmom m).
  by rewrite /r /bloch_rotate -/bo dict_of_uniq.
have gr : good bo mom r by rewrite rE; split=> //; rewrite /all_sym /= all_map; elim: (mdata m).
have [m' [E' g' e']] := apply_tail (bconjK pcK) g gr; exists m'; split=> // ev.
by rewrite e' rE {1}/meval /= big_map.
Qed.
End Action.
