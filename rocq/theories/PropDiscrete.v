(* C101: _find_unitary on Models, discrete_symmetries and the driver *)
From mathcomp Require Import all_ssreflect all_algebra.
From mathcomp Require Import complex.
From Verif Require Import Prelude PySet GroupGen GroupGenProofs GroupSpec PropGroups ModelCore ModelProofs PropModel PGE PGEProofs PGEGroup Keys KeysProofs PropApply LinSpan NullSpec Star Nullspace Linalg PropLinalg Family FamilyProofs FamilyOps PolyExt ActionProofs.
From Verif Require Import Tolerance PropTol Lie PropLie SymBlocks PropBlocks SimultDiag PropSimult PropConserved StarAlg Sun PropSun PropReduce PropFind Symmetries PropSymmetries ContSym PropContSym Discrete.

Set Implicit Arguments.
Unset Strict Implicit.
Unset Printing Implicit Defensive.
Import Order.TTheory GRing.Theory Num.Theory.
Local Open Scope ring_scope.

Section Nonzero.
Variables (F : rcfType) (n : nat) (K : eqType) (k1 : K) (Mom : eqType) (mom : Mom).
Local Notation C := F[i].
Local Notation mat := [lmodType C of 'M[C]_n.+1].
Local Notation model := (model K Mom mat).
Local Notation coef m k := (dget k1 (mdata m) (Sym k)).
Local Notation good := (FamilyProofs.good k1 mom).
Implicit Types (m : model).
Definition delta (k0 k : K) : C := (k == k0)%:R.

Lemma meval_coefs m m' ev : good m -> good m' -> (forall k, coef m k = coef m' k) -> meval k1 ev m = meval k1 ev m'.
Proof. by move=> [w _ _] [w' _ _] h; rewrite !mevalE; apply: deval_ext => // -[|k] //; exact: h k1. Qed.
Lemma coef_den m kv : wf_model k1 m -> List.In kv (mdata m) -> coef m (den k1 kv.1) = kv.2.
Proof. by move=> w h; rewrite -(dget_In w h); apply: dget_den. Qed.
Lemma coef_key m k : coef m k != 0 -> k \in dkeys k1 (mdata m).
Proof. by apply: contraR => h; rewrite (dget_notin (k := Sym k)). Qed.
Lemma nonzero_good m : good m -> good (nonzero m).
Proof.
move=> [w s mo]; split=> //; first by apply: subseq_uniq w; apply: map_subseq; apply: filter_subseq.
by rewrite /all_sym /=; apply/allP => x; rewrite mem_filter => /andP[_]; move/allP: s; apply.
Qed.
Lemma nonzero_coef m k : good m -> coef (nonzero m) k = coef m k.
Proof.
move=> [w s mo]; have [h|h] := boolP (k \in dkeys k1 (mdata (nonzero m))).
  case/mapP: h => kv kvi ->; have [w' _ _] := nonzero_good (And3 w s mo).
  have i1 : List.In kv (mdata (nonzero m)) by apply/In_mem.
  have i2 : List.In kv (mdata m) by apply/In_mem; move: kvi; rewrite mem_filter => /andP[].
  by rewrite (coef_den w' i1) (coef_den w i2).
rewrite (dget_notin (k := Sym k)) //; apply/esym/eqP; apply: contraNT h => nz.
have /mapP[kv kvi e] := coef_key nz; apply/mapP; exists kv => //; rewrite mem_filter kvi andbT.
by rewrite -(coef_den w) ?In_mem -?e //; apply/In_mem.
Qed.
Lemma nonzero_keys m k : good m -> (k \in dkeys k1 (mdata (nonzero m))) = (coef m k != 0).
Proof.
move=> g; apply/idP/idP => [/mapP[kv kvi ->]|nz]; last by apply: coef_key; rewrite nonzero_coef.
move: kvi; rewrite mem_filter => /andP[nz kvi]; case: g => w _ _; rewrite coef_den //; exact/In_mem.
Qed.
Lemma nonzero_eval m ev : good m -> meval k1 ev (nonzero m) = meval k1 ev m.
Proof. by move=> g; apply: meval_coefs => // [|k]; [apply: nonzero_good|rewrite nonzero_coef]. Qed.
Lemma same_keysP m m' : good m -> good m' -> reflect (forall k, (coef m k != 0) = (coef m' k != 0)) (same_keys k1 (nonzero m) (nonzero m')).
Proof.
move=> g g'; apply: (iffP andP) => [[/allP h1 /allP h2] k|h].
  by apply/idP/idP; rewrite -!nonzero_keys //; [move/h1|move/h2].
by split; apply/allP => k; rewrite !nonzero_keys // h.
Qed.
Lemma model_eqP m m' : reflect (forall k, coef m k = coef m' k) (model_eq k1 m m').
Proof.
apply: (iffP allP) => [h k|h k _]; last by rewrite h.
have [i|i] := boolP (k \in dkeys k1 (mdata m) ++ dkeys k1 (mdata m')); first exact/eqP/h.
by move: i; rewrite mem_cat negb_or => /andP[i i']; rewrite !(dget_notin (k := Sym k)).
Qed.
End Nonzero.

(* The group action is given by a transformation T of functions of the keys; instances below. *)
Section Search.
Variables (F : rcfType) (d n : nat) (K : eqType) (k1 : K) (Mom : eqType) (mom : Mom).
Local Notation C := F[i].
Local Notation mat := [lmodType C of 'M[C]_n.+1].
Local Notation model := (model K Mom mat).
Local Notation pge := (pge F d n).
Local Notation npge := (npge F d n).
Local Notation coef m k := (dget k1 (mdata m) (Sym k)).
Local Notation good := (FamilyProofs.good k1 mom).
Local Notation meval := (meval k1).
Variables (kc : K -> K) (T : 'M[F]_d -> (K -> C) -> K -> C).
Hypothesis kcK : involutive kc.
Hypothesis T_ext : forall R ev ev', ev =1 ev' -> T R ev =1 T R ev'.
Hypothesis TM : forall A B ev, T A (T B ev) =1 T (A *m B) ev.
Hypothesis T1 : forall ev, T 1%:M ev =1 ev.
Hypothesis T_bar : forall R ev, T R (kbar kc ev) =1 kbar kc (T R ev).
Local Notation phi := (phi kc T).
Local Notation act := PropApply.act.
Variable apply : pge -> model -> res model.
Hypothesis applyP : forall g m, pR g \in unitmx -> good m ->
  exists m', [/\ apply g m = Ok m', good m' & forall ev, meval ev m' = act g (meval (phi g ev) m)].
Variable m : model.
Hypothesis gm : good m.
Implicit Types (g : pge) (A : 'M[C]_n.+1).

(* g leaves the model invariant; g with some unitary does *)
Definition preserves (g : pge) : Prop := exists2 m', apply g m = Ok m' & forall k, coef m' k = coef m k.
Definition symmetric (g : pge) : Prop := exists2 U, unitarymx U & preserves (set_U g U).

Lemma preservesP g : pR g \in unitmx -> preserves g <-> (forall ev, act g (meval (phi g ev) m) = meval ev m).
Proof.
move=> u; have [m' [e gm' h]] := applyP u gm; split=> [[m'' e2 h2] ev|H].
  by rewrite -h; apply: (meval_coefs _ gm' gm) => k; rewrite -h2; move: e2; rewrite e => -[->].
exists m' => // k; case: (gm) (gm') => w _ _ [w' _ _].
by rewrite (coefE k w') (coefE k w) h H.
Qed.

Lemma actE g A : pU g = None -> act g A = (if panti g then -1 else 1) *: cjM (pconj g) A.
Proof. by rewrite /act => ->. Qed.
Lemma cjs (a b : bool) : cj b (if a then -1 else 1 : C) = if a then -1 else 1.
Proof. by case: b => //; case: a; [exact: (rmorphN1 (conjc_rmorphism F))|exact: (rmorph1 (conjc_rmorphism F))]. Qed.
Lemma sgs (a : bool) : (if a then -1 else 1 : C) * (if a then -1 else 1) = 1.
Proof. by case: a; rewrite ?mulrNN mulr1. Qed.
Lemma act_none g A : pU g = None -> act g (act g A) = A.
Proof. by move=> h; rewrite !actE // cjMZ cjs cjMK scalerA sgs scale1r. Qed.
Lemma act_sum g p (f : 'I_p -> C) (A : 'I_p -> 'M[C]_n.+1) : pU g = None ->
  act g (\sum_u f u *: A u) = \sum_u ((if panti g then -1 else 1) * cj (pconj g) (f u)) *: cjM (pconj g) (A u).
Proof.
move=> h; rewrite actE // cjM_sum scaler_sumr; apply: eq_bigr => u _; by rewrite cjMZ scalerA.
Qed.
Lemma act_set g U A : pU g = None -> act (set_U g U) A = U *m act g A *m dagger U.
Proof. by rewrite /act => -> /=. Qed.
Lemma act_dagger g A : dagger (act g A) = act g (dagger A).
Proof.
have e : dagger ((if panti g then -1 else 1) *: PGE.cj (pconj g) A) = (if panti g then -1 else 1) *: PGE.cj (pconj g) (dagger A).
  by case: (panti g); rewrite ?scaleN1r ?scale1r ?daggerN; case: (pconj g); rewrite //= dagger_mxconj mxconj_dagger.
by rewrite /act; case: (pU g) => [U|] /=; rewrite ?daggerM ?daggerK e ?mulmxA.
Qed.

Lemma dagger_eq0 A : (dagger A == 0) = (A == 0).
Proof. by apply/eqP/eqP => [/(congr1 (@dagger _ _ _))|->]; rewrite ?daggerK dagger0. Qed.

Section Find.
Variables (eigh : forall n, 'M[C]_n -> seq F * 'M[C]_n).
Variables (nsR : forall N, seq 'rV[F]_N -> seq 'rV[F]_N) (nsC : forall N, seq 'rV[C]_N -> seq 'rV[C]_N).
Hypotheses (eighP : eigh_contract eigh) (nsCP : exact_nullspace nsC).
Variable Ps : seq (stack F n.+1).
Hypothesis red : reduced [seq kv.2 | kv <- mdata m] Ps.
Hypothesis herm : forall k, coef m (kc k) = dagger (coef m k : 'M[C]_n.+1).
Hypothesis notzero : exists k, coef m k != 0.
Local Notation m0 := (nonzero m).
Local Notation sz := (size (mdata m0)).
Local Notation ks := (dkeys k1 (mdata m0)).
Definition keyt (t : 'I_sz) : K := nth k1 ks t.

Lemma keytE t : keyt t = den k1 (nth (RawOne, 0) (mdata m0) t).1.
Proof. by rewrite /keyt (nth_map (RawOne, 0)). Qed.
Lemma coefs_RE t : @coefs_R F n K Mom m0 t = coef m (keyt t).
Proof.
have [w _ _] := nonzero_good gm; rewrite -(nonzero_coef _ gm) keytE coef_den //; apply: nth_In; exact: ltn_ord.
Qed.
Lemma coefs_LE (Rm : model) t : good Rm -> @coefs_L F n K k1 Mom m0 (nonzero Rm) t = coef Rm (keyt t).
Proof. by move=> gR; rewrite -(nonzero_coef _ gR) keytE /coefs_L; apply: dget_den. Qed.
Lemma uks : uniq ks. Proof. by have [w _ _] := nonzero_good gm. Qed.
Lemma meval_ks ev (m' : model) : good m' -> (forall k, (coef m k != 0) = (coef m' k != 0)) -> meval ev m' = \sum_(k <- ks) ev k *: coef m' k.
Proof.
move=> g' h; have [w' _ _] := nonzero_good g'.
rewrite -(nonzero_eval ev g') mevalE (deval_keys _ w' uks) => [|k]; last by rewrite (nonzero_keys _ g') (nonzero_keys _ gm) h.
by apply: eq_bigr => k _; rewrite (nonzero_coef _ g').
Qed.
Lemma meval_keys ev (m' : model) : good m' -> (forall k, (coef m k != 0) = (coef m' k != 0)) -> meval ev m' = \sum_t ev (keyt t) *: coef m' (keyt t).
Proof.
move=> g' h; rewrite meval_ks // (big_nth k1) big_mkord /dkeys size_map; by apply: eq_bigr.
Qed.
Lemma keyt_kc t : exists u, keyt u = kc (keyt t).
Proof.
have kin : kc (keyt t) \in ks.
  by rewrite (nonzero_keys _ gm) herm dagger_eq0 -(nonzero_keys _ gm) mem_nth // size_map.
have l : (index (kc (keyt t)) ks < sz)%N by rewrite -(size_map (fun kv => den k1 kv.1)) index_mem.
by exists (Ordinal l); rewrite /keyt nth_index.
Qed.
Lemma meval_kbar ev : meval (kbar kc ev) m = dagger (meval ev m : 'M[C]_n.+1).
Proof.
rewrite !meval_ks // [RHS]dag_sum.
have pe : perm_eq ks [seq kc k | k <- ks].
  apply: uniq_perm; [exact: uks|by rewrite map_inj_uniq ?uks //; apply: inv_inj|].
  have kk k : (k \in ks) = (kc k \in ks) by rewrite !(nonzero_keys _ gm) herm dagger_eq0.
  by move=> k; rewrite -[k in RHS]kcK (mem_map (inv_inj kcK)) kk.
rewrite (perm_big _ pe) big_map; apply: eq_bigr => k _; by rewrite /kbar kcK herm [RHS]daggerZ.
Qed.

Variable g : pge.
Hypotheses (ug : pR g \in unitmx) (Ug : pU g = None).

Theorem find_modelP : exists2 r, find_model k1 eigh nsR nsC apply Ps m g = Ok r &
  if r is Some U then unitarymx U /\ preserves (set_U g U) else ~ symmetric g.
Proof.
have [Rm [eR gR hR]] := applyP ug (nonzero_good gm).
have hR' ev : meval ev Rm = act g (meval (phi g ev) m) by rewrite hR (nonzero_eval _ gm).
have coefR k : coef Rm k = meval (delta F k) Rm by case: gR => wR _ _; rewrite (coefE k wR).
have coefm k : coef m k = meval (delta F k) m by case: gm => w _ _; rewrite (coefE k w).
have uS U : pR (set_U g U) \in unitmx by [].
have presE U : unitarymx U -> preserves (set_U g U) <-> (forall k, U *m coef Rm k = (coef m k : 'M[C]_n.+1) *m U).
  case=> U1 U2; have [m' [e gm' h]] := applyP (uS U) gm.
  have cE k : coef m' k = U *m coef Rm k *m dagger U.
    by case: (gm') => w' _ _; rewrite (coefE k w') h act_set // coefR hR' (@phi_basic _ _ _ _ kc T (set_U g U) g).
  split=> [[m'' e2 h2] k|H].
    by rewrite -h2; move: e2; rewrite e => -[<-]; rewrite cE -mulmxA U2 mulmx1.
  by exists m' => // k; rewrite cE H -mulmxA U1 mulmx1.
have nsym k U : unitarymx U -> preserves (set_U g U) -> (coef m k != 0) = (coef Rm k != 0).
  move=> uU pU'; have := (presE U uU).1 pU' k; case: uU => U1 U2 e.
  apply/idP/idP; apply: contraNneq => z; move: e; rewrite z.
    by rewrite mulmx0 => /(congr1 (mulmx^~ (dagger U))) /=; rewrite mul0mx -mulmxA U1 mulmx1 => ->.
  by rewrite mul0mx => /(congr1 (mulmx (dagger U))) /=; rewrite mulmx0 mulmxA U2 mul1mx => ->.
rewrite /find_model Ug eR [bind _ _]/=.
case: ifPn => [nk|]; first exists None => //.
  case=> U uU pU'; case/negP: nk; apply/(same_keysP gm gR) => k; exact: nsym uU pU'.
rewrite negbK => /(same_keysP gm gR) sk.
have sz0 : (0 < sz)%N.
  by case: notzero => k; rewrite -(nonzero_keys _ gm) => /mapP[kv kvi _]; case: (mdata m0) kvi.
rewrite ifF; last by apply/negbTE; rewrite /nilp -lt0n.
set sq := pge_eq _ _.
have [ad adE] : exists ad : 'I_sz -> 'I_sz, forall t, keyt (ad t) = kc (keyt t).
  exists (fun t => odflt t [pick u | keyt u == kc (keyt t)]) => t; case: pickP => [u /eqP //|no].
  by case: (keyt_kc t) => u /eqP; rewrite no.
pose s : C := if panti g then -1 else 1.
pose rho : 'M[C]_sz := \matrix_(t, u) (s * cj (pconj g) (phi g (delta F (keyt t)) (keyt u))).
have red0 : reduced [seq @coefs_R F n K Mom m0 t | t <- enum 'I_sz] Ps.
  case: red => o a c h; split=> // X; rewrite -h; split=> cX A.
    case/In_map_iff=> kv kvi ->; have [->|nz] := eqVneq kv.2 0; first by rewrite mulmx0 mul0mx.
    apply: cX; apply/In_map_iff; have kin : kv \in mdata m0 by rewrite mem_filter nz; apply/In_mem.
    exists (Ordinal (etrans (index_mem kv (mdata m0)) kin)); first by apply/In_mem; rewrite mem_enum.
    by rewrite /coefs_R nth_index.
  case/In_map_iff=> t _ ->; apply: cX; apply/In_map_iff; exists (nth (RawOne, 0) (mdata m0) t) => //.
  apply/In_mem; have := mem_nth (RawOne, 0) (ltn_ord t); by rewrite mem_filter => /andP[].
have dk k : delta F (kc k) =1 kbar kc (delta F k).
  by move=> k'; rewrite /kbar /delta -[k' == _](inj_eq (inv_inj kcK)) kcK; case: (_ == _); rewrite ?(rmorph1 (conjc_rmorphism F)) ?(rmorph0 (conjc_rmorphism F)).
have bar k : coef Rm (kc k) = dagger (coef Rm k : 'M[C]_n.+1).
  rewrite !coefR (meval_sum_ext _ _ (dk k)) !hR' act_dagger -meval_kbar; congr (act g _).
  by apply: meval_sum_ext; apply: phi_bar.
have sumR ev : meval ev Rm = \sum_t ev (keyt t) *: coef Rm (keyt t) by apply: (meval_keys _ gR).
have sqE : sq -> pR g *m pR g = 1%:M by rewrite /sq /pge_eq => /andP[/andP[/eqP]].
have [t|t|/sqE gg t|t|t||r er hr] := @find_reduced F eigh nsR nsC eighP nsCP n sz (@coefs_L F n K k1 Mom m0 (nonzero Rm)) (@coefs_R F n K Mom m0) (pconj g) sq Ps sz0 rho ad.
- rewrite (coefs_LE _ gR) coefR hR' (meval_keys _ gm) // act_sum //; apply: eq_bigr => u _; by rewrite coefs_RE mxE.
- pose ev := phi (pge_inv g) (delta F (keyt t)).
  exists (fun u => s * ev (keyt u)); transitivity (s *: meval ev Rm).
    rewrite hR' coefs_RE actE // scalerA sgs scale1r coefm; congr (cjM _ _).
    apply: meval_sum_ext => k; rewrite /ev -(phiM kcK T_ext TM T_bar) ?unitmx_inv //.
    by rewrite (phi1 _ T1) //= ?mulVmx // addbb.
  rewrite sumR scaler_sumr; apply: eq_bigr => u _; by rewrite (coefs_LE _ gR) scalerA.
- rewrite -[LHS](act_none _ Ug) coefs_RE coefm.
  have -> : act g (meval (delta F (keyt t)) m) = meval (phi g (delta F (keyt t))) Rm.
    rewrite hR'; congr (act g _); apply: meval_sum_ext => k; rewrite -(phiM kcK T_ext TM T_bar) //.
    by rewrite (phi1 _ T1) //= addbb.
  rewrite sumR act_sum //; apply: eq_bigr => u _; by rewrite (coefs_LE _ gR) mxE.
- by rewrite !coefs_RE adE herm.
- by rewrite !(coefs_LE _ gR) adE bar.
- exact: red0.
exists r => //; have all U : (forall t, U *m @coefs_L F n K k1 Mom m0 (nonzero Rm) t = @coefs_R F n K Mom m0 t *m U) <->
    (forall k, U *m coef Rm k = (coef m k : 'M[C]_n.+1) *m U).
  split=> h k; last by rewrite (coefs_LE _ gR) coefs_RE h.
  have [kin|] := boolP (k \in ks); last first.
    rewrite (nonzero_keys _ gm) => z; have := z; rewrite sk negbK => /eqP ->; move: z; rewrite negbK => /eqP ->.
    by rewrite mulmx0 mul0mx.
  have l : (index k ks < sz)%N by rewrite -(size_map (fun kv => den k1 kv.1)) index_mem.
  by have := h (Ordinal l); rewrite (coefs_LE _ gR) coefs_RE /keyt nth_index.
case: r er hr => [U|] er hr.
  case: hr => u hU; have uU : unitarymx U by split=> //; exact: mulmx1C u.
  by split=> //; apply/presE => //; apply/all.
case=> U uU /presE-/(_ uU) h; apply: (hr U); last exact/all.
by case: uU => u1 _; case: (mulmx1_unit u1).
Qed.
End Find.

(* ---- the invariance group ---- *)
(* an element with a unitary, which leaves the model invariant *)
Definition symmetry (g : pge) : Prop := [/\ pge_wf g, pU g <> None & preserves g].
Lemma preserves_same g h : pR g \in unitmx -> pge_same g h -> preserves g -> preserves h.
Proof.
move=> u [e1 e2 e3 e4] /(preservesP u) H; apply/preservesP => [|ev]; first by rewrite -e1.
by rewrite -[RHS]H /act -e2 -e3 -e4 (@phi_basic _ _ _ _ kc T h g).
Qed.
Lemma symmetry_mul g h : symmetry g -> symmetry h -> symmetry (pge_mul g h).
Proof.
case=> wg Ug pg [wh Uh ph]; have [ug _] := wg; have [uh _] := wh; split; first exact: pge_wf_mul.
  by rewrite /=; case: (pU g) Ug => // U _; case: (pU h) Uh.
apply/preservesP => [|ev]; first by rewrite unitmx_mul ug uh.
rewrite act_mul; last by rewrite /same_U; case: (pU g) Ug => // U _; case: (pU h) Uh.
rewrite (meval_sum_ext _ _ (phiM kcK T_ext TM T_bar _ ug uh)).
by rewrite ((preservesP uh).1 ph) ((preservesP ug).1 pg).
Qed.
Lemma symmetry_id g : pR g = 1%:M -> pconj g = false -> panti g = false -> pU g = Some 1%:M -> symmetry g.
Proof.
move=> e1 e2 e3 e4; split; rewrite ?e4 //; first by split; rewrite ?e1 ?unitmx1 // e4; split; rewrite dagger1 mulmx1.
apply/preservesP => [|ev]; first by rewrite e1 unitmx1.
by rewrite /act e2 e3 e4 /= scale1r dagger1 mulmx1 mul1mx (meval_sum_ext _ _ (phi1 _ T1 _ e1 e2)).
Qed.
Lemma symmetry_inv g : symmetry g -> symmetry (pge_inv g).
Proof.
case=> wg Ug pg; have [ug _] := wg; have uV : pR (pge_inv g) \in unitmx by rewrite unitmx_inv.
split; [exact: pge_wf_inv|by rewrite /=; case: (pU g) Ug|].
apply/(preservesP uV) => ev; rewrite -((preservesP ug).1 pg (phi (pge_inv g) ev)).
have sU : same_U (pge_inv g) g by rewrite /same_U /=; case: (pU g).
have [ER Ec Ea EU] := pge_mulVg wg.
rewrite -(act_mul _ sU) -(meval_sum_ext _ _ (phiM kcK T_ext TM T_bar _ uV ug)) (meval_sum_ext _ _ (phi1 _ T1 _ ER Ec)).
by rewrite /act Ec Ea EU /= scale1r; case: (pU g) => [U|] //=; rewrite mul1mx dagger1 mulmx1.
Qed.
Lemma symmetricP g : pR g \in unitmx -> symmetric g <-> exists2 h, symmetry h & basic_eq h g.
Proof.
move=> u; split=> [[U uU pU']|[h [[uh wh] Uh ph] [e1 e2 e3]]]; first by exists (set_U g U).
case E: (pU h) Uh wh => [U|] // _ wh; exists U => //; by apply: preserves_same ph.
Qed.
Lemma symmetric_basic g h : pR g \in unitmx -> basic_eq g h -> symmetric g -> symmetric h.
Proof.
move=> u [e1 e2 e3] /(symmetricP u)[h' s [e4 e5 e6]]; apply/symmetricP; rewrite -?e1 //.
by exists h' => //; split; rewrite ?e4 ?e5 ?e6.
Qed.

(* ---- discrete_symmetries ---- *)
Lemma ds_loop_find (f f' : npge -> option npge) ord inv pick check fuel gf cand ss gs ns :
  (forall c s, List.In c s -> List.In (pick c s) s) -> (forall x : npge, List.In x cand -> f x = f' x) ->
  ds_loop (@npge_eq F d n) (@npge_mul F d n) ord inv pick f check fuel gf cand ss gs ns =
  ds_loop (@npge_eq F d n) (@npge_mul F d n) ord inv pick f' check fuel gf cand ss gs ns.
Proof.
move=> pk; elim: fuel cand ss gs ns => [|fuel IH] [|c cand] ss gs ns h //; cbn [ds_loop].
have pin : List.In (pick c (c :: cand)) (c :: cand) by apply: pk; left.
rewrite (h _ pin); case: (f' _) => [gr|].
  case: ifP => // _; case: (generate_group _ _ _ _ _) => // ss'; apply: IH => g.
  by rewrite /set_diff; move=> /In_filter[/In_filter[/In_filter[+ _] _] _]; apply: h.
by apply: IH => g; rewrite /set_diff; move=> /In_filter[/In_filter[+ _] _]; apply: h.
Qed.

Section Discrete.
Variables (eigh : forall n, 'M[C]_n -> seq F * 'M[C]_n).
Variables (nsR : forall N, seq 'rV[F]_N -> seq 'rV[F]_N) (nsC : forall N, seq 'rV[C]_N -> seq 'rV[C]_N).
Hypotheses (eighP : eigh_contract eigh) (nsCP : exact_nullspace nsC).
Variable Ps : seq (stack F n.+1).
Hypothesis red : reduced [seq kv.2 | kv <- mdata m] Ps.
Hypothesis herm : forall k, coef m (kc k) = dagger (coef m k : 'M[C]_n.+1).
Hypothesis notzero : exists k, coef m k != 0.
Variables (ord : seq npge -> seq npge) (pick : npge -> seq npge -> npge) (fuel gf : nat).
Hypotheses (ordP : enumeration ord) (pickP : forall c s, List.In c s -> List.In (pick c s) s).
Local Notation find_model := (find_model k1 eigh nsR nsC apply Ps m).
Local Notation inset := (inset (@npge_eq F d n)).

Definition strip (g : pge) : pge := Pge (pR g) (pconj g) (panti g) None false.
Definition found' (g : npge) : option npge := if find_model (strip (val g)) is Ok (Some U) then Some (nset_U g U) else None.
Lemma npge_unit (g : npge) : pR (val g) \in unitmx. Proof. by case/andP: (valP g). Qed.
Lemma found'S (g gr : npge) : found' g = Some gr -> symmetry (val gr) /\ basic_eq (val gr) (val g).
Proof.
rewrite /found'; have [r -> h] := find_modelP nsR eighP nsCP red herm notzero (g := strip (val g)) (npge_unit g) erefl.
case: r h => // U [uU pU'] [<-]; split=> //; split=> //; by have u := npge_unit g.
Qed.
Lemma found'N (g : npge) : found' g = None -> ~ symmetric (val g).
Proof.
rewrite /found'; have [r -> h] := find_modelP nsR eighP nsCP red herm notzero (g := strip (val g)) (npge_unit g) erefl.
by case: r h.
Qed.
Lemma invariant_sym (g : npge) : symmetry (val g) -> invariant k1 apply m g.
Proof. by rewrite /invariant => -[_ _ [m' -> h]]; apply/model_eqP. Qed.

(* the result (symset, genset) of discrete_symmetries is right for the candidates *)
Definition found_group (candidates symset genset : seq npge) : Prop := [/\
    (* a candidate is in the result exactly if it is a symmetry *)
    forall x : npge, inset candidates x -> (inset symset x <-> symmetric (val x)),
    (* all elements of the result are symmetries with their unitaries *)
    (forall x : npge, List.In x symset -> symmetry (val x)) /\ (forall x : npge, List.In x genset -> symmetry (val x) /\ inset candidates x),
    forall x : npge, inset symset x <-> npge_eq x (npge_one F d n) \/ is_product (@npge_eq F d n) (@npge_mul F d n) genset x &
    forall x : npge, inset symset x <-> npge_eq x (npge_one F d n) \/
      (exists2 y, gen_by (@npge_mul F d n) (fun z => inset candidates z /\ symmetric (val z)) y & npge_eq x y)].
(* discrete_symmetries with the projectors of the reduction finds the symmetries among the candidates *)
Theorem discreteP (candidates L : seq npge) : candidates <> [::] -> (forall x : npge, List.In x candidates -> pU (val x) = None) ->
  included (@npge_eq F d n) candidates L -> GroupSpec.closed (@npge_eq F d n) (@npge_mul F d n) L -> (size candidates <= fuel)%N -> (size L < gf)%N ->
  exists symset genset, discrete k1 eigh nsR nsC apply ord pick fuel gf Ps m candidates = Some (Ok (symset, genset)) /\
    found_group candidates symset genset.
Proof.
move=> ne cU cL Lcl lt1 lt2.
have identP c : npge_eq (unit_of c) (npge_one F d n) by apply/npge_eqP.
have unit_sym c : symmetry (val (unit_of c)) by apply: symmetry_id.
have Sym_eqb (x y : npge) : npge_eq x y -> symmetric (val x) -> symmetric (val y).
  by move/npge_eqP; apply: symmetric_basic; apply: npge_unit.
have Sym_mul (x y : npge) : symmetric (val x) -> symmetric (val y) -> symmetric (val (npge_mul x y)).
  move=> /(symmetricP (npge_unit x))[x' sx [h1 h2 h3]] /(symmetricP (npge_unit y))[y' sy [h4 h5 h6]].
  apply/(symmetricP (npge_unit _)); exists (pge_mul x' y'); first exact: symmetry_mul.
  by split; rewrite /= ?h1 ?h2 ?h3 ?h4 ?h5 ?h6.
have Sym_inv (x : npge) : symmetric (val x) -> symmetric (val (npge_inv x)).
  move=> /(symmetricP (npge_unit x))[x' sx [h1 h2 h3]]; apply/(symmetricP (npge_unit _)).
  by exists (pge_inv x'); [exact: symmetry_inv|split; rewrite /= ?h1 ?h2 ?h3].
have sym_symmetric (x : npge) : symmetry (val x) -> symmetric (val x).
  by move=> s; apply/(symmetricP (npge_unit x)); exists (val x).
have Sym_e : symmetric (val (npge_one F d n)) by apply: (Sym_eqb (unit_of (npge_one F d n))) => //; apply: sym_symmetric.
have findS (g gr : npge) : found' g = Some gr -> [/\ npge_eq gr g, symmetric (val g) & invariant k1 apply m gr].
  move=> /found'S[s b]; split; [exact/npge_eqP| |exact: invariant_sym].
  by apply: (Sym_eqb gr); [apply/npge_eqP|apply: sym_symmetric].
have fE : discrete k1 eigh nsR nsC apply ord pick fuel gf Ps m candidates =
    discrete_symmetries (@npge_eq F d n) (@npge_mul F d n) ord (@npge_inv F d n) pick found' (invariant k1 apply m) fuel gf (@unit_of F d n) candidates.
  rewrite /discrete /discrete_symmetries; case: (candidates) ne cU => // c cs _ cU; apply: ds_loop_find => // g.
  rewrite /set_diff => /In_filter[+ _] => /cU e; rewrite /found /found' /strip -e.
  have -> // : find_model (val g) = find_model (Pge (pR (val g)) (pconj (val g)) (panti (val g)) (pU (val g)) false).
  by case: g e => -[R c' a U s] /= /andP[_ /negPf ->].
have [ss [gs [E h1 h2 h3 [h4 h5]]]] := C08_discrete_symmetries_exact (npge_group_laws F d n) ordP pickP identP Sym_eqb Sym_mul Sym_inv Sym_e findS found'N ne cL Lcl lt1 lt2.
exists ss, gs; rewrite fE; do 2 split=> //; split=> x.
  case/h5=> [[c ->] //|]; elim=> [y [g [_ /found'S[] //]]|y z _ sy _ sz]; exact: symmetry_mul.
by case/h4=> _ [g [gin /found'S[s b]]]; split=> //; case: gin => c cin gc; exists c => //; apply: npge_trans gc; apply/npge_eqP.
Qed.

(* generate_group({time_reversal, particle_hole, chiral}) has four elements *)
Lemma default_candidatesP : (4 < gf)%N -> exists G, [/\ default_candidates ord gf = Some G, size G = 4%N, forall x : npge, List.In x G -> pU (val x) = None,
  GroupSpec.closed (@npge_eq F d n) (@npge_mul F d n) G &
  forall x : npge, inset G x <-> pR (val x) = 1%:M].
Proof.
move=> lt; have [r s t mu a] := npge_semigroup_laws F d n.
pose L := [:: onsite F d n false false; onsite F d n true false; onsite F d n true true; onsite F d n false true].
have inL c b : List.In (onsite F d n c b) L by case: c; case: b; rewrite /=; tauto.
pose gens := [:: onsite F d n true false; onsite F d n true true; onsite F d n false true].
have lit x : gen_by (@npge_mul F d n) (fun z => List.In z gens) x -> pR (val x) = 1%:M /\ pU (val x) = None.
  elim=> [y [<-|[<-|[<-|[]]]] //|y z _ [h1 h2] _ [h3 h4] /=]; by rewrite h1 h3 h2 mulmx1.
have cov x : is_product (@npge_eq F d n) (@npge_mul F d n) gens x -> inset L x.
  case=> y /lit[h _] xy; exists (onsite F d n (pconj (val y)) (panti (val y))) => //.
  by apply: npge_trans xy _; apply/npge_eqP; split.
have [G E] := C04_generate_group_terminates (npge_semigroup_laws F d n) ordP cov lt.
have [g1 g2 g3 g4 _] := C04_generate_group_exact (npge_semigroup_laws F d n) ordP E.
have inG c b : inset G (onsite F d n c b).
  have bas x : List.In x gens -> inset G x by move=> xin; apply: g2; exists x.
  case: c; case: b; try by apply: bas; rewrite /=; tauto.
  have := g3 _ _ (bas (onsite F d n true false) (or_introl erefl)) (bas (onsite F d n true false) (or_introl erefl)).
  case=> y yin e; exists y => //; apply: npge_trans e; apply/npge_eqP; by split; rewrite //= mulmx1.
have GE (x : npge) : inset G x <-> pR (val x) = 1%:M.
  split=> [/g1[y /lit[h _] /npge_eqP[-> _ _]] //|h]; case: (inG (pconj (val x)) (panti (val x))) => y yin e.
  by exists y => //; apply: npge_trans e; apply/npge_eqP.
exists G; split=> //; last by move=> x /(generate_group_sound ordP E)/lit[].
have wG := generate_group_wf s E.
apply/eqP; rewrite eqn_leq; apply/andP; split.
  apply: (set_wf_size s t wG (t := L)); apply/allIn => x xin; apply/insetP; apply: cov; apply/g1; exists x => //.
have wL : set_wf (@npge_eq F d n) L by rewrite /= /npge_eq /pge_eq /= !eqxx.
apply: (set_wf_size s t wL (t := G)); apply/allIn => x xin; apply/insetP; case: xin => [<-|[<-|[<-|[<-|//]]]]; exact: inG.
Qed.
End Discrete.
End Search.
