(* C02, C03, C22, C83: action of point group elements on Models and BlochModels.
   [ker a m] is the value of the Model m at the assignment a (values of the momenta,
   the phase function and all other symbols), [ber a m] that of a BlochModel. *)
From mathcomp Require Import all_ssreflect all_algebra.
From mathcomp Require Import complex realalg.
From Verif Require Import Prelude ModelCore ModelProofs PGE PGEProofs Keys KeysProofs PropModel.

Set Implicit Arguments.
Unset Strict Implicit.
Unset Printing Implicit Defensive.
Import GRing.Theory Num.Theory.
Local Open Scope ring_scope.
Local Open Scope complex_scope.

Section Apply.
Variables (F : rcfType) (d n : nat) (P : eqType) (pone : P) (pmul : P -> P -> P) (pc : P -> P).
Hypothesis pcK : involutive pc.
Variable (Mom : eqType).
Local Notation C := F[i].
Local Notation pge := (pge F d n).
Local Notation key := (key F d P).
Local Notation bkey := (bkey F d P).
Local Notation mat := [lmodType C of 'M[C]_n.+1].
Local Notation kmodel := (model [eqType of key] Mom mat).
Local Notation bmodel := (model [eqType of bkey] Mom mat).
Local Notation ass := (assignment F d pone pmul pc).
Let ko : [eqType of key] := kone F d pone.
Let bo : [eqType of bkey] := bone F d pone.
Implicit Types (g h : pge) (m : kmodel) (a : ass).

(* The documented action: (+/-) U H(+/- inv(R) k) U^dagger, H conjugated if antiunitary *)
Definition pull g (k : 'cV[F]_d) : 'cV[F]_d :=
  (if pconj g then - invmx (pR g) else invmx (pR g)) *m k.
Definition sandwich (oU : option 'M[C]_n.+1) (A : 'M[C]_n.+1) : 'M[C]_n.+1 :=
  if oU is Some U then U *m A *m dagger U else A.
Definition act g (A : 'M[C]_n.+1) : 'M[C]_n.+1 :=
  sandwich (pU g) ((if panti g then -1 else 1) *: cj (pconj g) A).

Lemma conjugate_by_eval (K : eqType) (k1 : K) (oU : option 'M[C]_n.+1) (m : model K Mom mat) ev :
  meval k1 ev (conjugate_by oU m) = sandwich oU (meval k1 ev m).
Proof.
case: oU => [U|//] /=; rewrite !eval_mmap // => *; rewrite ?mulmxDl ?mulmxDr //.
- by rewrite -scalemxAr.
- by rewrite -scalemxAl.
Qed.

Lemma conjugate_by_sym (K : eqType) (oU : option 'M[C]_n.+1) (m : model K Mom mat) :
  all_sym (conjugate_by oU m) = all_sym m.
Proof. by case: oU => [U|//]; rewrite /= !mmap_sym. Qed.
Lemma conjugate_by_wf (K : eqType) (k1 : K) (oU : option 'M[C]_n.+1) (m : model K Mom mat) :
  wf_model k1 (conjugate_by oU m) = wf_model k1 m.
Proof. by case: oU => [U|//]; rewrite /= !mmap_wf. Qed.
Lemma conjugate_by_mom (K : eqType) (oU : option 'M[C]_n.+1) (m : model K Mom mat) :
  mmom (conjugate_by oU m) = mmom m.
Proof. by case: oU. Qed.

(* apply evaluates to the documented action *)
Theorem C02_apply_value g m : all_sym m ->
  exists m', [/\ pge_apply pone pc g m = Ok m', wf_model ko m', all_sym m', mmom m' = mmom m
    & forall a, ker a m' = act g (ker (at_k a (pull g (as_k a))) m)].
Proof.
move=> s; rewrite /pge_apply -/ko.
have [r [-> w1 s1 m1 e1]] := rotate_props pone pmul pc (if pconj g then - invmx (pR g) else invmx (pR g)) s.
rewrite [bind _ _]/=.
have [r' [-> w2 s2 m2 e2]] : exists r',
  [/\ (if pconj g then mconj ko (kconj pc : key -> key) (@mxconj F n.+1 n.+1) r else Ok r) = Ok r',
      wf_model ko r', all_sym r', mmom r' = mmom r & forall a, ker a r' = cj (pconj g) (ker a r)].
  case: (pconj g); last by exists r.
  have [Hc [E [s2 w2] _ H]] := @C14_conj F [eqType of key] ko Mom (kconj pc) (kconjK pcK) n.+1 n.+1 r s1 w1.
  exists Hc; split=> //; last by move=> a; apply: H => k; apply: kev_conj.
  by move: E; rewrite (mconj_props _ (inv_inj (kconjK pcK))) // => -[<-].
rewrite [bind _ _]/=; eexists; split; first reflexivity.
- by rewrite conjugate_by_wf; case: (panti g); rewrite ?mneg_wf.
- by rewrite conjugate_by_sym; case: (panti g); rewrite ?mneg_sym.
- by rewrite conjugate_by_mom; case: (panti g); rewrite /= m2 m1.
- move=> a; rewrite /ker conjugate_by_eval /act; congr sandwich.
  have -> : meval ko (kev a) (if panti g then mneg r' else r') =
     (if panti g then -1 else 1) *: meval ko (kev a) r'.
    by case: (panti g); rewrite ?mneg_eval ?scaleN1r ?scale1r.
  by congr (_ *: _); rewrite -/(ker a r') e2 e1.
Qed.

Lemma sandwich_mul (oU oV : option 'M[C]_n.+1) (c : bool) (s : C) A : (oU == None) = (oV == None) ->
  sandwich (if oU is Some U1 then
         if oV is Some U2 then Some (if c then U1 *m mxconj U2 else U1 *m U2) else None
       else None) (s *: A) = sandwich oU (s *: cj c (sandwich oV (cj c A))).
Proof.
case: oU oV => [U|] [V|] //= _; last by case: c => //=; rewrite mxconjK.
rewrite -!scalemxAr -!scalemxAl; congr (_ *: _).
case: c => /=; rewrite ?mxconjM daggerM ?mxconjK ?mulmxA //.
by rewrite dagger_mxconj.
Qed.

Definition same_U g h : Prop := (pU g == None) = (pU h == None).

Lemma invmxM (A B : 'M[F]_d) : A \in unitmx -> B \in unitmx -> invmx (A *m B) = invmx B *m invmx A.
Proof.
move=> uA uB; have uAB : A *m B \in unitmx by rewrite unitmx_mul uA.
by rewrite -[RHS](mulmxK uAB) -[X in _ = X *m _]mulmxA (mulmxA (invmx A)) mulVmx // mul1mx mulVmx // mul1mx.
Qed.

Lemma pull_mul g h k : pR g \in unitmx -> pR h \in unitmx ->
  pull (pge_mul g h) k = pull h (pull g k).
Proof.
move=> ug uh; rewrite /pull /= invmxM // mulmxA.
by case: (pconj g); case: (pconj h); rewrite /= ?mulmxN ?mulNmx ?opprK.
Qed.

Lemma act_mul g h A : same_U g h -> act (pge_mul g h) A = act g (act h A).
Proof.
move=> sU; rewrite /act /= sandwich_mul //; congr (sandwich _ _).
have -> : cj (pconj g) (cj (pconj g (+) pconj h) A) = cj (pconj h) A.
  by case: (pconj g); case: (pconj h) => //=; rewrite mxconjK.
have sN (oU : option 'M[C]_n.+1) B : sandwich oU (- B) = - sandwich oU B.
  by case: oU => [U|//] /=; rewrite mulmxN mulNmx.
have cN c (B : 'M[C]_n.+1) : cj c (- B) = - cj c B by case: c => //=; rewrite mxconjN.
by case: (panti g); case: (panti h); rewrite /= ?scaleN1r ?scale1r ?sN ?cN ?opprK.
Qed.

(* apply is a left action *)
Theorem C02_apply_is_action g h m : all_sym m ->
  pR g \in unitmx -> pR h \in unitmx -> same_U g h ->
  exists m1 m2 m12, [/\ pge_apply pone pc h m = Ok m1, pge_apply pone pc g m1 = Ok m2,
    pge_apply pone pc (pge_mul g h) m = Ok m12 & forall a, ker a m12 = ker a m2].
Proof.
move=> s ug uh sU.
have [m1 [E1 _ s1 _ e1]] := C02_apply_value h s.
have [m2 [E2 _ s2 _ e2]] := C02_apply_value g s1.
have [m12 [E12 _ s12 _ e12]] := C02_apply_value (pge_mul g h) s.
exists m1, m2, m12; split=> // a.
by rewrite e12 e2 e1 act_mul // pull_mul.
Qed.

Theorem C02_apply_inverse g m : all_sym m -> pge_wf g ->
  exists m1 m2, [/\ pge_apply pone pc g m = Ok m1, pge_apply pone pc (pge_inv g) m1 = Ok m2
    & forall a, ker a m2 = ker a m].
Proof.
move=> s [u w].
have [m1 [E1 _ s1 _ e1]] := C02_apply_value g s.
have [m2 [E2 _ s2 _ e2]] := C02_apply_value (pge_inv g) s1.
exists m1, m2; split=> // a.
have sU : same_U (pge_inv g) g by rewrite /same_U /=; case: (pU g).
rewrite e2 e1 -act_mul // -pull_mul //=; last by rewrite unitmx_inv.
have [ER Ec Ea EU] := pge_mulVg (conj u w).
have -> : pull (pge_mul (pge_inv g) g) (as_k a) = as_k a.
  by rewrite /pull Ec ER /= invmx1 mul1mx.
rewrite /act Ec Ea EU /= scale1r; case: a => *; case: (pU g) => [U|] //=.
by rewrite mul1mx dagger1 mulmx1.
Qed.

(* C03: Hermiticity and phases *)
Definition hermitian_at_all_k m : Prop := forall a, dagger (ker a m) = ker a m.

Theorem C03_apply_preserves_hermiticity g m : all_sym m -> hermitian_at_all_k m ->
  exists m', pge_apply pone pc g m = Ok m' /\ hermitian_at_all_k m'.
Proof.
move=> s H; have [m' [E _ _ _ e]] := C02_apply_value g s; exists m'; split=> // a.
rewrite e; move: (H (at_k a (pull g (as_k a)))); move: (ker _ m) => A HA.
have HB : dagger ((if panti g then -1 else 1) *: cj (pconj g) A) = (if panti g then -1 else 1) *: cj (pconj g) A.
  have -> : dagger ((if panti g then -1 else 1) *: cj (pconj g) A)
     = (if panti g then -1 else 1) *: dagger (cj (pconj g) A).
    by case: (panti g); rewrite ?scaleN1r ?scale1r ?daggerN.
  by congr (_ *: _); case: (pconj g) => //=; rewrite dagger_mxconj -mxconj_dagger HA.
rewrite /act; move: HB; move: (_ *: _) => B HB; case: (pU g) => [U|] //=.
by rewrite !daggerM daggerK HB mulmxA.
Qed.

Theorem C03_apply_ignores_phase g (U : 'M[C]_n.+1) (z : C) m : z * conjc z = 1 ->
  pU g = Some U ->
  pge_apply pone pc (Pge (pR g) (pconj g) (panti g) (Some (z *: U)) (pstrict g)) m =
  pge_apply pone pc g m.
Proof.
move=> z1 EU; rewrite /pge_apply /= EU /=.
case: (rotate_momenta _ _ _) => //= r; case: (if pconj g then _ else _) => //= r'.
congr Ok; rewrite /mmap /=; congr Mk; rewrite -!map_comp; apply: eq_map => kv /=.
by rewrite daggerZ -!scalemxAl -scalemxAr scalerA z1 scale1r.
Qed.

(* C22: rotations of momenta *)
Theorem C22_rotate_value (V : lmodType C) (R : 'M[F]_d) (m : model [eqType of key] Mom V) :
  all_sym m ->
  exists r, [/\ rotate_momenta pone R m = Ok r, all_sym r & forall a : ass,
     ker a r = ker (at_k a (R *m as_k a)) m].
Proof. by move=> s; have [r [E _ s' _ e]] := rotate_props pone pmul pc R s; exists r. Qed.

Theorem C22_rotate_composes (V : lmodType C) (R1 R2 : 'M[F]_d) (m : model [eqType of key] Mom V) :
  all_sym m ->
  exists r1 r2 r12, [/\ rotate_momenta pone R1 m = Ok r1, rotate_momenta pone R2 r1 = Ok r2,
     rotate_momenta pone (R1 *m R2) m = Ok r12 & forall a : ass, ker a r2 = ker a r12].
Proof.
move=> s.
have [r1 [E1 s1 e1]] := C22_rotate_value R1 s.
have [r2 [E2 s2 e2]] := C22_rotate_value R2 s1.
have [r12 [E12 s12 e12]] := C22_rotate_value (R1 *m R2) s.
exists r1, r2, r12; split=> // a; rewrite e2 e1 e12 /=.
by rewrite mulmxA.
Qed.

(* BlochModel, invertible R *)
Theorem C22_bloch_rotate_value (V : lmodType C) (R : 'M[F]_d) (m : model [eqType of bkey] Mom V) :
  R \in unitmx -> wf_model bo m ->
  forall a : ass, ber a (bloch_rotate pone R m) = ber (at_k a (R *m as_k a)) m.
Proof. by move=> u w a; have [_ _ ->] := bloch_rotate_props pmul pc u w. Qed.

Theorem C22_tomodel_value (V : lmodType C) (m : model [eqType of bkey] Mom V) :
  wf_model bo m -> mkeep m = [::] -> forall a : ass, ker a (tomodel pone m) = ber a m.
Proof. by move=> w k0 a; have [_ _ ->] := tomodel_eval pmul pc w k0. Qed.

Theorem C22_tomodel_rotate (V : lmodType C) (R : 'M[F]_d) (m : model [eqType of bkey] Mom V) :
  R \in unitmx -> wf_model bo m -> mkeep m = [::] ->
  exists r, rotate_momenta pone R (tomodel pone m) = Ok r /\
    forall a : ass, ker a (tomodel pone (bloch_rotate pone R m)) = ker a r.
Proof.
move=> u w k0.
have [_ s _] := tomodel_eval pmul pc w k0.
have [r [E _ e]] := C22_rotate_value R s; exists r; split=> // a.
have [w' _ _] := bloch_rotate_props pmul pc u w.
by rewrite e !C22_tomodel_value // C22_bloch_rotate_value.
Qed.

Theorem C22_tomodel_conj (m : bmodel) : all_sym m -> wf_model bo m -> mkeep m = [::] ->
  exists rb rk, [/\ mconj bo (bconj pc : bkey -> bkey) (@mxconj F n.+1 n.+1) m = Ok rb,
    mconj ko (kconj pc : key -> key) (@mxconj F n.+1 n.+1) (tomodel pone m) = Ok rk &
    forall a : ass, ker a (tomodel pone rb) = ker a rk].
Proof.
move=> s w k0.
have [rb [Eb [sb wb] _ Hb]] := @C14_conj F [eqType of bkey] bo Mom (bconj pc) (bconjK pcK) n.+1 n.+1 m s w.
have [wk sk _] := tomodel_eval pmul pc w k0.
have [rk [Ek _ _ Hk]] := @C14_conj F [eqType of key] ko Mom (kconj pc) (kconjK pcK) n.+1 n.+1 _ sk wk.
exists rb, rk; split=> // a.
have kb : mkeep rb = [::].
  by move: Eb; rewrite (mconj_props _ (inv_inj (bconjK pcK))) // => -[<-].
rewrite C22_tomodel_value // /ber Hb => [|k]; last exact: bev_conj.
rewrite /ker Hk => [|k]; last exact: kev_conj.
by rewrite -/(ker a _) C22_tomodel_value.
Qed.

Theorem C22_tomodel_add (V : lmodType C) (r1 r2 : model [eqType of bkey] Mom V) :
  wf_model bo r1 -> wf_model bo r2 -> mkeep r1 = [::] -> mkeep r2 = [::] -> mmom r1 = mmom r2 ->
  exists rb rk, [/\ madd bo r1 r2 = Ok rb, madd ko (tomodel pone r1) (tomodel pone r2) = Ok rk &
    forall a : ass, ker a (tomodel pone rb) = ker a rk].
Proof.
move=> w1 w2 k1 k2 E.
have [v1 _ _] := tomodel_eval pmul pc w1 k1; have [v2 _ _] := tomodel_eval pmul pc w2 k2.
have [rb [Eb wb _ eb]] := C12_add w1 w2 E.
have E' : mmom (tomodel pone r1) = mmom (tomodel pone r2) by [].
have [rk [Ek _ _ ek]] := C12_add v1 v2 E'.
exists rb, rk; split=> // a.
have kb : mkeep rb = [::].
  by have := @madd'_keep _ bo _ Mom _ r1 r2; rewrite /madd' Eb k1 k2 => ->.
by rewrite C22_tomodel_value // /ber eb /ker ek -!/(ber a _) -!/(ker a _) !C22_tomodel_value.
Qed.

Theorem C22_tomodel_mul (V1 V2 V3 : lmodType C) (vmul : V1 -> V2 -> V3)
    (r1 : model [eqType of bkey] Mom V1) (r2 : model [eqType of bkey] Mom V2) :
  bilinear vmul ->
  wf_model bo r1 -> wf_model bo r2 -> mkeep r1 = [::] -> mkeep r2 = [::] -> mmom r1 = mmom r2 ->
  exists rb rk, [/\ mmul bo (bmul pmul) vmul r1 r2 = Ok rb,
     mmul ko (kmul pmul) vmul (tomodel pone r1) (tomodel pone r2) = Ok rk &
    forall a : ass, ker a (tomodel pone rb) = ker a rk].
Proof.
move=> bl w1 w2 k1 k2 E.
have [v1 _ _] := tomodel_eval pmul pc w1 k1; have [v2 _ _] := tomodel_eval pmul pc w2 k2.
have [rb [Eb wb kb _ eb]] := C13_product bo (bmul pmul : bkey -> _) bl E k1 k2.
have E' : mmom (tomodel pone r1) = mmom (tomodel pone r2) by [].
have kt (V : lmodType C) (m : model [eqType of bkey] Mom V) : mkeep m = [::] -> mkeep (tomodel pone m) = [::].
  by rewrite /= => ->.
have [rk [Ek _ _ _ ek]] := C13_product ko (kmul pmul : key -> _) bl E' (kt _ _ k1) (kt _ _ k2).
exists rb, rk; split=> // a.
rewrite C22_tomodel_value // /ber eb; last by move=> x y; apply: bev_mul.
rewrite /ker ek; last by move=> x y; apply: kev_mul.
by rewrite -!/(ber a _) -!/(ker a _) !C22_tomodel_value.
Qed.

(* the action on a BlochModel is the action on the corresponding Model *)
Theorem C22_bloch_apply_value g (m : bmodel) : all_sym m -> wf_model bo m -> pR g \in unitmx ->
  exists m' : bmodel, pge_apply_bloch pone pc g m = Ok m' /\
    forall a : ass, ber a m' = act g (ber (at_k a (pull g (as_k a))) m).
Proof.
move=> s w u; rewrite /pge_apply_bloch -/bo.
have uR : (if pconj g then - invmx (pR g) else invmx (pR g)) \in unitmx.
  case: (pconj g); last by rewrite unitmx_inv.
  by rewrite -scaleN1r unitmxZ ?unitmx_inv // unitrN unitr1.
have [w1 s1 e1] := bloch_rotate_props pmul pc uR w.
move: w1 s1 e1; set r := bloch_rotate _ _ _ => w1 s1 e1.
have [r' [-> e2]] : exists r',
  (if pconj g then mconj bo (bconj pc : bkey -> bkey) (@mxconj F n.+1 n.+1) r else Ok r) = Ok r' /\
   forall a, ber a r' = cj (pconj g) (ber a r).
  case: (pconj g); last by exists r.
  have [Hc [E _ _ H]] := @C14_conj F [eqType of bkey] bo Mom (bconj pc) (bconjK pcK) n.+1 n.+1 r s1 w1.
  by exists Hc; split=> // a; apply: H => k; apply: bev_conj.
rewrite [bind _ _]/=; eexists; split; first reflexivity.
move=> a; rewrite /ber conjugate_by_eval /act; congr sandwich.
have -> : meval bo (bev a) (if panti g then mneg r' else r') =
     (if panti g then -1 else 1) *: meval bo (bev a) r'.
  by case: (panti g); rewrite ?mneg_eval ?scaleN1r ?scale1r.
by congr (_ *: _); rewrite -/(ber a r') e2 e1.
Qed.
End Apply.

(* ---- concrete cases and refutations: one momentum, no other symbols ---- *)
Section Concrete.
Local Notation F := realalg_rcfType.
Local Notation C := F[i].
Local Notation P := [eqType of unit].
Local Notation key := (key F 1 P).
Local Notation bkey := (bkey F 1 P).
Local Notation mat n := [lmodType C of 'M[C]_n.+1].
Local Notation ass := (assignment F 1 (tt : P) (fun _ _ => tt) (fun _ => tt)).
Local Notation Mom := [eqType of unit].

Lemma one1 : 1 = (1 * 1 : C). Proof. by rewrite mulr1. Qed.
Lemma one2 : conjc (1 : C) = 1. Proof. by rewrite rmorph1. Qed.
Definition triv (k : F) : ass :=
  @Assignment F 1 P tt (fun _ _ => tt) (fun _ => tt) (const_mx k) (fun=> 1) (fun=> 1) erefl (fun _ _ => one1)
    (fun _ => one2) erefl (fun _ _ => one1) (fun _ => esym one2).

(* C22 is false for singular R on a BlochModel: e^(ik) + e^(-ik) at R = 0 is 2, but
   the two rotated keys coincide and only the last entry survives *)
Theorem C22_bloch_singular_rotation_refuted :
  exists (m : model [eqType of bkey] Mom (mat 0)) (R : 'M[F]_1) (a : ass),
    [/\ wf_model (bone F 1 (tt : P) : [eqType of bkey]) m, all_sym m
    & ber a (bloch_rotate (tt : P) R m) <> ber (at_k a (R *m as_k a)) m].
Proof.
pose h1 : bkey := (const_mx 1, tt); pose h2 : bkey := (const_mx (-1), tt).
have h12 : h1 <> h2.
  case=> /matrixP /(_ 0 0); rewrite !mxE => /eqP; rewrite -subr_eq0 opprK.
  by rewrite -[1 + 1](natrD _ 1 1) pnatr_eq0.
exists (Mk [:: (Sym (h1 : [eqType of bkey]), 1%:M : mat 0); (Sym (h2 : [eqType of bkey]), 1%:M : mat 0)] [::] tt), 0, (triv 1).
split=> //; first by rewrite /wf_model /wf_dict /dkeys /= inE andbT; apply/eqP.
rewrite /ber /bloch_rotate /meval /= /dict_of /= /pk_eq /=.
have -> : brot 0 h2 == brot 0 h1 by rewrite /brot /= !mulmx0.
rewrite big_seq1 !big_cons big_nil /= /bev /= !mulr1 !scale1r addr0.
move/matrixP/(_ 0 0); rewrite !mxE eqxx /= => /eqP; rewrite -subr_eq0 opprD addrA subrr sub0r.
by rewrite oppr_eq0 oner_eq0.
Qed.

(* C83 is false: apply treats U = None as the identity, products treat it as
   absorbing, so applying g * h and applying h, then g differ *)
Definition swap2 : 'M[C]_2 := \matrix_(i, j) (i != j)%:R.
Definition proj2 : 'M[C]_2 := \matrix_(i, j) ((i == 0) && (j == 0))%:R.
Lemma swap2_unitary : unitarymx swap2.
Proof.
have E : dagger swap2 = swap2.
  by apply/matrixP => i j; rewrite !mxE eq_sym; case: eqP => _; rewrite ?rmorph0 ?rmorph1.
have EE : swap2 *m swap2 = 1%:M.
  apply/matrixP => i j; rewrite !mxE big_ord_recl big_ord1 !mxE.
  by case: i => [[|[|//]] ?]; case: j => [[|[|//]] ?]; rewrite /= !(mulr0, mulr1, mul0r, addr0, add0r).
by rewrite /unitarymx E EE.
Qed.

Theorem C83_missing_U_refuted :
  exists (g h : pge F 1 1) (m m1 m2 m12 : model [eqType of key] Mom (mat 1)) (a : ass),
    [/\ pge_wf g /\ pge_wf h, all_sym m,
        pge_apply (tt : P) (fun _ => tt) h m = Ok m1 /\ pge_apply (tt : P) (fun _ => tt) g m1 = Ok m2,
        pge_apply (tt : P) (fun _ => tt) (pge_mul g h) m = Ok m12 & ker a m12 <> ker a m2].
Proof.
pose g : pge F 1 1 := Pge 1%:M false false None false.
pose h : pge F 1 1 := Pge 1%:M false false (Some swap2) false.
pose m : model [eqType of key] Mom (mat 1) :=
  Mk [:: (Sym (kone F 1 (tt : P) : [eqType of key]), proj2)] [::] tt.
have s : all_sym m by [].
have pK : involutive (fun _ : P => tt : P) by case.
have [m1 [E1 _ s1 _ e1]] := @C02_apply_value F 1 1 P tt (fun _ _ => tt) (fun _ => tt) pK Mom h m s.
have [m2 [E2 _ s2 _ e2]] := @C02_apply_value F 1 1 P tt (fun _ _ => tt) (fun _ => tt) pK Mom g m1 s1.
have [m12 [E12 _ s12 _ e12]] := @C02_apply_value F 1 1 P tt (fun _ _ => tt) (fun _ => tt) pK Mom (pge_mul g h) m s.
exists g, h, m, m1, m2, m12, (triv 0); split=> //.
  by split; split; rewrite ?unitmx1 //; apply: swap2_unitary.
rewrite e12 e2 e1 /act /= !scale1r.
have kv (b : ass) : ker b m = proj2.
  rewrite /ker /meval big_seq1 /= (_ : kev b _ = 1) ?scale1r //; exact: kev_one.
rewrite !kv => /matrixP /(_ 0 0).
rewrite [LHS]mxE /= mxE big_ord_recl big_ord1 [X in _ = X * _ + _]mxE [X in _ = _ + X * _]mxE.
rewrite !big_ord_recl !big_ord0 /= !mxE /= !(mul0r, mulr0, mulr1, addr0, add0r, rmorph0) => /eqP.
by rewrite oner_eq0.
Qed.

(* H(k) = 2 k under k -> -k *)
Example C02_example :
  let e1 : pw 1 := [ffun=> 1%N] in
  let m : model [eqType of key] Mom (mat 0) :=
    Mk [:: (Sym ((e1, 0, tt) : [eqType of key]), 2%:R%:M : mat 0)] [::] tt in
  let g : pge F 1 0 := Pge (-1)%:M false false None false in
  exists m', pge_apply (tt : P) (fun _ => tt) g m = Ok m' /\
    forall k, ker (triv k) m' = (- (k%:C) * 2%:R)%:M.
Proof.
move=> e1 m g; have s : all_sym m by [].
have pK : involutive (fun _ : P => tt : P) by case.
have [m1 [E1 _ s1 _ H]] := @C02_apply_value F 1 0 P tt (fun _ _ => tt) (fun _ => tt) pK Mom g m s.
exists m1; split=> // k; rewrite H /act /pull /= scale1r.
rewrite /ker /meval big_seq1 /= /kev /= /pev big_ord1 ffunE expr1 !mulr1.
have -> : invmx ((-1)%:M : 'M[F]_1) = (-1)%:M by rewrite invmx_scalar invrN1.
rewrite mul_scalar_mx mxE mxE mulN1r -scalemx1 -[in RHS]scalemx1 scalerA; congr (_ *: _).
by rewrite raddfN.
Qed.

Example C22_example :
  let m : model [eqType of bkey] Mom (mat 0) :=
     Mk [:: (Sym ((const_mx 1, tt) : [eqType of bkey]), 1%:M : mat 0)] [::] tt in
  mdata (bloch_rotate (tt : P) (-1)%:M m) = [:: (Sym ((const_mx (-1), tt) : [eqType of bkey]), 1%:M : mat 0)].
Proof.
rewrite /bloch_rotate /dict_of /= /brot /=; congr [:: (Sym (_, _), _)].
by rewrite mul_mx_scalar; apply/matrixP => i j; rewrite !mxE mulr1.
Qed.
End Concrete.

Print Assumptions C02_apply_is_action.
Print Assumptions C02_apply_inverse.
Print Assumptions C03_apply_preserves_hermiticity.
Print Assumptions C22_rotate_composes.
Print Assumptions C22_tomodel_mul.
Print Assumptions C22_bloch_singular_rotation_refuted.
Print Assumptions C83_missing_U_refuted.
