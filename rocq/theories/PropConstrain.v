(* C32, C33: constrain_family and check_symmetry. *)
From mathcomp Require Import all_ssreflect all_algebra.
From mathcomp Require Import complex realalg.
From Verif Require Import Prelude ModelCore ModelProofs PropModel PGE PGEProofs Keys KeysProofs PropApply PropCGG LinSpan NullSpec PropLinalg Family FamilyProofs PropFamily FamilyOps.

Set Implicit Arguments.
Unset Strict Implicit.
Unset Printing Implicit Defensive.
Import GRing.Theory Num.Theory.
Local Open Scope ring_scope.
Local Open Scope complex_scope.

Section Constrain.
Variables (F : rcfType) (n1 n2 : nat) (K : eqType) (kone : K) (Mom : eqType).
Local Notation C := F[i].
Local Notation V := [lmodType C of 'M[C]_(n1, n2)].
Local Notation model := (model K Mom V).
Local Notation coef m k := (dget kone (mdata m) (Sym k)).
Local Notation fcoef := (fcoef kone).
Local Notation is_comb := (is_comb kone).
Local Notation fspan := (fspan kone).
Local Notation good := (good kone).
Local Notation findep := (findep kone).
Implicit Types (family fam : seq model) (m : model) (c : nat -> F).

Variables (Sy : Type) (sapply : Sy -> model -> res model) (discrete has_U : Sy -> bool) (mom : Mom).
Variable ns : forall N, seq 'rV[F]_N -> seq 'rV[F]_N.
Hypothesis NS : exact_nullspace ns.
Local Notation constrain := (constrain_family kone sapply discrete has_U ns).
Local Notation symmetric := (symmetric kone sapply discrete).

Lemma fspan_member fam m : List.In m fam -> fspan fam m.
Proof.
move=> /(In_nth m) [j lj ->]; exists (fun i => (i == j)%:R) => k.
rewrite /FamilyProofs.fcoef (bigD1 (Ordinal lj)) //= eqxx scale1r (nth_map m) //.
rewrite big1 ?addr0 // => i ij; rewrite (_ : (i == j :> nat) = false) ?scale0r //.
by apply/negbTE; apply: contraNneq ij => e; apply/eqP/val_inj.
Qed.

(* every member of the result satisfies every symmetry: check_symmetry passes *)
Theorem C32_members_symmetric symmetries family result :
  (forall s, List.In s symmetries -> lin_op kone mom (sapply s)) ->
  (forall m, List.In m family -> good mom m) ->
  constrain symmetries family = Ok result ->
  check_symmetry kone sapply discrete result symmetries = Ok tt.
Proof.
move=> LS gf E; have [gr H] := C32_constrain_family NS LS gf E.
have S s m : List.In s symmetries -> List.In m result -> satisfies kone sapply discrete s m = Ok true.
  move=> hs hm; have /(H m (gr m hm)) [_ /(_ s hs) [m' em' Em']] := fspan_member hm.
  by rewrite /satisfies em' /=; congr Ok; apply/allP => k _; rewrite Em'; case: (discrete s).
have M l : (forall s, List.In s l -> List.In s symmetries) ->
   mapM (fun s => mapM (satisfies kone sapply discrete s) result) l = Ok (nseq (size l) (nseq (size result) true)).
  elim: l => //= s l IH hl; rewrite IH; last by move=> s' h; apply: hl; right.
  suff -> : mapM (satisfies kone sapply discrete s) result = Ok (nseq (size result) true) by [].
  have : forall m, List.In m result -> satisfies kone sapply discrete s m = Ok true.
    by move=> m hm; apply: S => //; apply: hl; left.
  elim: (result) => //= m l' IH' hl'; rewrite hl' /=; last by left.
  by rewrite IH' // => m' h; apply: hl'; right.
rewrite /check_symmetry M //=.
suff -> : all (fun b => b) (flatten (nseq (size symmetries) (nseq (size result) true))) by [].
elim: (size symmetries) => //= k IH; rewrite all_cat IH andbT.
by elim: (size result).
Qed.

(* independent families stay independent *)
Theorem C32_independent symmetries family result :
  (forall m, List.In m family -> good mom m) -> findep family ->
  constrain symmetries family = Ok result -> findep result.
Proof.
move=> gf; case: (posnP (size family)) => [/size0nil ->|n0] fi; first by case=> <-.
have [m1 [fam' Ef]] : exists m1 fam', family = m1 :: fam' by case: (family) n0 => // m1 fam'; exists m1, fam'.
rewrite /constrain_family {1}Ef; case: ifP => // _; case: ifP => // _.
case er: (mapM _ symmetries) => [rotated|] //=.
case eb: (mapM _ _) => [cms|] //=; case: ifP => // /negbT nc.
set cm := flatten cms; case: ifP => [_ [<-] //|_].
case eh: (mapM _ (ns cm)) => [hs|] //= [<-].
have [szh hsE] := mapM_ok eh; have [I B] := NS cm.
have hsP i m0 v0 : (i < size (ns cm))%N -> is_comb family (rowf (nth v0 (ns cm) i)) (nth m0 hs i).
  move=> li; have := hsE v0 m0 i li; have [m [-> _ cmb]] := combine_row (nth v0 (ns cm) i) n0 gf.
  by case=> <-.
have fh : findep hs.
  move=> c c0 j; rewrite szh => lj; apply: (I c) lj; apply/rowP => i; rewrite [RHS]mxE.
  have := fi (rowf (comb [rmorphism of idfun] (ns cm) c)) _ i (ltn_ord i); rewrite rowfE; apply=> k.
  by rewrite -(fcoef_combine _ _ szh erefl hsP).
suff /all_filterP -> : all (fun h => ~~ nilp (mdata h)) hs by [].
apply/allIn => h /(In_nth h) [j lj ->]; apply/negP => /nilP e.
suff /(fh (fun i => (i == j)%:R)) /(_ j lj) /eqP : forall k, fcoef hs (fun i => (i == j)%:R) k = 0.
  by rewrite eqxx oner_eq0.
move=> k.
apply: big1 => i _; case: (eqVneq (i : nat) j) => [->|_]; last by rewrite scale0r.
by rewrite (nth_map h) // e scaler0.
Qed.

(* C33: exactly when constrain_family returns *)
Theorem C33_accepts_iff symmetries family : (0 < size family)%N ->
  (forall s, List.In s symmetries -> lin_op kone mom (sapply s)) ->
  (forall s, List.In s symmetries -> has_U s) ->
  (forall m, List.In m family -> good mom m) ->
  (exists result, constrain symmetries family = Ok result) <->
  (0 < size symmetries)%N /\
  (has discrete symmetries -> forall m k, List.In m family -> k \in dkeys kone (mdata m) ->
     exists s m0 m', [/\ List.In s symmetries, List.In m0 family, sapply s m0 = Ok m' & k \in dkeys kone (mdata m')]).
Proof.
move=> n0 LS HU gf.
have [m1 [fam' Ef]] : exists m1 fam', family = m1 :: fam' by case: (family) n0 => // m1 fam'; exists m1, fam'.
have rT s : List.In s symmetries -> exists rs, mapM (sapply s) family = Ok rs.
  by move=> /LS [tot _]; apply: mapM_total => m /gf; apply: tot.
have [rotated er] := mapM_total rT.
have [szr rotE] := mapM_ok er.
have rs_of s rs : List.In (s, rs) (zip symmetries rotated) -> mapM (sapply s) family = Ok rs.
  move=> h; have [j lj E] := In_nth (s, rs) h; move: lj E; rewrite size1_zip ?szr // => lj.
  by rewrite nth_zip ?szr // => -[-> ->]; apply: (rotE s rs).
set vars := family_keys kone (flatten rotated).
have vP k : k \in vars <-> exists s m0 m', [/\ List.In s symmetries, List.In m0 family, sapply s m0 = Ok m' & k \in dkeys kone (mdata m')].
  have InF (T : Type) (x : T) ss : List.In x (flatten ss) <-> exists2 s0, List.In s0 ss & List.In x s0.
    elim: ss => [|s0 ss IH] /=; first by split=> // -[].
    rewrite In_cat IH; split=> [[h|[s1 h1 h2]]|[s1 [->|h1] h2]]; first by exists s0; [left|].
    - by exists s1; [right|].
    - by left.
    - by right; exists s1.
  rewrite mem_undup; split=> [/flattenP [ks]|].
    have Im (l : seq model) : ks \in [seq dkeys kone (mdata m) | m <- l] -> exists2 m, List.In m l & ks = dkeys kone (mdata m).
      by elim: l => //= m l IH; rewrite inE => /orP [/eqP ->|/IH [m' h ->]]; [exists m; [left|]|exists m'; [right|]].
    move=> /Im [m' /InF [rs hrs hm'] ->] kd; have [s hs es] := mapM_In er hrs.
    by have [m0 h0 e0] := mapM_In es hm'; exists s, m0, m'.
  case=> s [m0 [m' [hs h0 e0 kd]]]; have [rs hrs es] := mapM_In' er hs; have [m'' h'' e''] := mapM_In' es h0.
  move: e''; rewrite e0 => -[e'']; subst m''.
  apply/flattenP; exists (dkeys kone (mdata m')) => //.
  have : List.In m' (flatten rotated) by apply/InF; exists rs.
  by elim: (flatten rotated) => //= m l IH [->|/IH h]; rewrite inE ?eqxx ?h ?orbT.
have covR s rs : List.In (s, rs) (zip symmetries rotated) -> covered kone vars rs.
  move=> h; apply/allIn => m' hm'; apply/allP => k kd; apply/vP.
  by have [m0 h0 e0] := mapM_In (rs_of _ _ h) hm'; have [hs _] := In_zip h; exists s, m0, m'.
have covF : covered kone vars family <-> forall m k, List.In m family -> k \in dkeys kone (mdata m) ->
     exists s m0 m', [/\ List.In s symmetries, List.In m0 family, sapply s m0 = Ok m' & k \in dkeys kone (mdata m')].
  split=> [/allIn H m k hm kd|H]; first by apply/vP; have /allP := H m hm; apply.
  by apply/allIn => m hm; apply/allP => k kd; apply/vP; apply: H hm kd.
rewrite -covF /constrain_family {1}Ef.
have -> : all (fun m => mmom m == mmom m1) family.
  have [_ _ e1] : good mom m1 by apply: gf; rewrite Ef; left.
  by apply/allIn => m /gf [_ _ ->]; rewrite e1.
have -> : all has_U symmetries by apply/allIn.
rewrite /= er /= -/vars.
split=> [[result]|[sn hc]].
  case eb: (mapM _ _) => [cms|] //=; case: ifP => // /negbT nc _.
  have [szc cmE] := mapM_ok eb; split.
    by move: nc; rewrite /nilp szc size1_zip ?szr // lt0n.
  move=> hd.
  have [s hs ds] : exists2 s, List.In s symmetries & discrete s.
    elim: (symmetries) hd => //= s l IH /orP [ds|/IH [s' h1 h2]]; first by exists s; [left|].
    by exists s'; [right|].
  have [j lj Ej] := In_nth s hs.
  have h : List.In (s, nth [::] rotated j) (zip symmetries rotated).
    by rewrite {1}Ej -nth_zip ?szr //; apply: nth_In; rewrite size1_zip ?szr.
  have [b _] := mapM_In' eb h; rewrite /constraint_block /= ds.
  case: family_to_vectors => //= w; case e: (family_to_vectors kone family _) => [w'|] //= _.
  by have [] := f2v_ok e.
have [|cms eb] := mapM_total (f := constraint_block kone discrete family vars) (s := zip symmetries rotated).
  case=> s rs h; rewrite /constraint_block /=.
  have [sz _] := mapM_ok (rs_of _ _ h).
  rewrite f2v_total ?(covR _ _ h) //=; last by left; rewrite sz.
  case ds: (discrete s); last by eexists.
  rewrite f2v_total /=; [by eexists|by left|apply: hc].
  have [hs _] := In_zip h; elim: (symmetries) hs => //= s' l IH [->|/IH ->]; rewrite ?ds ?orbT //.
rewrite eb /=; have [szc _] := mapM_ok eb.
have -> : nilp cms = false by rewrite /nilp szc size1_zip ?szr //; apply/negbTE; rewrite -lt0n.
case: ifP => _; first by exists family.
have [|hs ->] := mapM_total (f := fun v => combine kone family (rowseq v)) (s := ns (flatten cms)).
  by move=> v _; have [m [E _ _]] := combine_row v n0 gf; exists m.
by eexists.
Qed.
End Constrain.

(* ---- the two kinds of symmetry acting on Models, and point group elements on BlochModels ---- *)
Section Concrete.
Variables (F : rcfType) (d n : nat) (P : eqType) (pone : P) (pmul : P -> P -> P) (pc : P -> P).
Hypothesis pcK : involutive pc.
Variable (Mom : eqType) (mom : Mom).
Local Notation C := F[i].
Local Notation pge := (pge F d n).
Local Notation key := (key F d P).
Local Notation bkey := (bkey F d P).
Local Notation mat := [lmodType C of 'M[C]_n.+1].
Local Notation kmodel := (model [eqType of key] Mom mat).
Local Notation bmodel := (model [eqType of bkey] Mom mat).
Let ko : [eqType of key] := kone F d pone.
Let bo : [eqType of bkey] := bone F d pone.

Inductive symmetry := Discrete of pge | Continuous of option 'M[C]_d & option 'M[C]_n.+1.
Definition is_discrete (s : symmetry) : bool := if s is Discrete _ then true else false.
Definition sym_has_U (s : symmetry) : bool :=
  match s with Discrete g => pU g != None | Continuous _ U => U != None end.
Definition sym_apply (s : symmetry) (m : kmodel) : res kmodel :=
  match s with Discrete g => pge_apply pone pc g m | Continuous R U => cgg_apply pone R U m end.

Lemma sym_apply_linear s : lin_op ko mom (sym_apply s).
Proof.
apply: lop_linop; case: s => [g|R U]; first exact: (pge_apply_lop pone pcK mom g).
exact: (cgg_apply_lop pone mom R U).
Qed.

Variable ns : forall N, seq 'rV[F]_N -> seq 'rV[F]_N.
Hypothesis NS : exact_nullspace ns.

(* C32 for Models with any mixture of discrete and continuous symmetries *)
Theorem C32_models symmetries (family result : seq kmodel) :
  (forall m, List.In m family -> good ko mom m) ->
  constrain_family ko sym_apply is_discrete sym_has_U ns symmetries family = Ok result ->
  forall m, good ko mom m ->
    (fspan ko result m <->
     fspan ko family m /\ forall s, List.In s symmetries -> symmetric ko sym_apply is_discrete s m).
Proof.
move=> gf E; have [] := C32_constrain_family NS _ gf E => //; first by move=> s _; apply: sym_apply_linear.
Qed.

Definition bloch_apply (g : pge) (m : bmodel) : res bmodel := pge_apply_bloch pone pc g m.
(* C32 for BlochModels *)
Theorem C32_bloch (symmetries : seq pge) (family result : seq bmodel) :
  (forall g, List.In g symmetries -> pR g \in unitmx) ->
  (forall m, List.In m family -> good bo mom m) ->
  constrain_family bo bloch_apply xpredT (fun g => pU g != None) ns symmetries family = Ok result ->
  forall m, good bo mom m ->
    (fspan bo result m <->
     fspan bo family m /\ forall g, List.In g symmetries -> symmetric bo bloch_apply xpredT g m).
Proof.
move=> uR gf E; have [] := C32_constrain_family NS _ gf E => //.
by move=> g /uR u; apply: lop_linop; apply: (pge_apply_bloch_lop pone pmul pcK mom).
Qed.

(* C33 for BlochModels: the family is refused although it is a valid family and
   the symmetry a valid symmetry *)
Lemma bloch_constrain_reject (g : pge) U (v : 'rV[F]_d) (A : 'M[C]_n.+1) (q : P) : pR g \in unitmx ->
  pU g = Some U -> pconj g = false -> v *m invmx (pR g) != v ->
  ~ exists result, constrain_family bo bloch_apply xpredT (fun g => pU g != None) ns [:: g]
     [:: Mk [:: (Sym ((v, q) : bkey), A : mat)] [::] mom] = Ok result.
Proof.
move=> u eU ec nv; rewrite (@C33_accepts_iff _ _ _ _ bo _ _ _ _ _ mom) //.
- case=> _ /(_ isT _ (v, q) (or_introl erefl)); rewrite inE eqxx => /(_ isT) [g' [m0 [m' [[<-|//] [<-|//]]]]].
  rewrite /bloch_apply /pge_apply_bloch ec eU /= => -[<-].
  by rewrite /=; case: (panti g); rewrite /= inE eqE /= eq_sym (negPf nv).
- by move=> g' [<-|//]; apply: lop_linop; apply: (pge_apply_bloch_lop pone pmul pcK mom).
- by move=> g' [<-|//]; rewrite eU.
- by move=> m [<-|//].
Qed.
End Concrete.

Theorem C33_accepts_refuted (F : rcfType) (ns : forall N, seq 'rV[F]_N -> seq 'rV[F]_N) :
  exists (g : pge F 1 0) (m : model [eqType of bkey F 1 unit_eqType] unit_eqType [lmodType F[i] of 'M[F[i]]_1]),
    [/\ pge_wf g, pU g != None, good (bone F 1 tt : [eqType of bkey F 1 unit_eqType]) tt m &
    ~ exists result, constrain_family (bone F 1 tt : [eqType of bkey F 1 unit_eqType]) (fun g m => bloch_apply tt id g m)
       xpredT (fun g => pU g != None) ns [:: g] [:: m] = Ok result].
Proof.
exists (Pge (-1)%:M false false (Some 1%:M) false).
exists (Mk [:: (Sym ((const_mx 1, tt) : bkey F 1 unit_eqType), 1%:M : [lmodType F[i] of 'M[F[i]]_1])] [::] tt).
have u : ((-1)%:M : 'M[F]_1) \in unitmx by rewrite unitmxE det_scalar expr1 unitrN1.
split=> //.
  by split=> //=; split; rewrite dagger1 mulmx1.
set g := Pge _ _ _ _ _.
refine (@bloch_constrain_reject F 1 0 unit_eqType tt (fun _ _ => tt) id _ unit_eqType tt ns g 1%:M _ _ _ u _ _ _) => //=.
have -> : invmx ((-1)%:M : 'M[F]_1) = (-1)%:M.
  by rewrite -[RHS](mulKmx u) -scalar_mxM mulrNN mulr1 mulmx1.
rewrite mul_mx_scalar; apply/eqP => /rowP /(_ 0); rewrite !mxE mulr1 => /eqP.
by rewrite eq_sym -subr_eq0 opprK -mulr2n pnatr_eq0.
Qed.

(* no symmetries at all is refused too *)
Theorem C33_no_symmetries_refuted (F : rcfType) (n1 n2 : nat) (K : eqType) (kone : K) (Mom : eqType)
   (Sy : Type) sapply discrete has_U (ns : forall N, seq 'rV[F]_N -> seq 'rV[F]_N) m family :
  all (fun m' : model K Mom [lmodType F[i] of 'M[F[i]]_(n1, n2)] => mmom m' == mmom m) family ->
  constrain_family kone sapply discrete has_U ns ([::] : seq Sy) (m :: family) = Err ValueError.
Proof. by move=> h; rewrite /constrain_family /= eqxx h. Qed.

Print Assumptions C32_models.
Print Assumptions C33_accepts_refuted.

(* Non-trivial case: the family {exp(ik), exp(-ik)} in one dimension with inversion
   is accepted, the cosine survives and exp(ik) alone does not *)
Section Example.
Variable F : rcfType.
Local Notation mat1 := [lmodType F[i] of 'M[F[i]]_1].
Local Notation bk := [eqType of bkey F 1 unit_eqType].
Let b1 : bk := bone F 1 (tt : unit_eqType).
Definition hop (vs : seq 'rV[F]_1) : model bk unit_eqType mat1 :=
  Mk [seq (Sym ((v, tt) : bk), 1%:M : mat1) | v <- vs] [::] tt.
Definition inversion1 : pge F 1 0 := Pge (-1)%:M false false (Some 1%:M) false.

Lemma inv1 : invmx ((-1)%:M : 'M[F]_1) = (-1)%:M.
Proof.
have u : ((-1)%:M : 'M[F]_1) \in unitmx by rewrite unitmxE det_scalar expr1 unitrN1.
by rewrite -[RHS](mulKmx u) -scalar_mxM mulrNN mulr1 mulmx1.
Qed.
Lemma brot1 v : brot (-1)%:M ((v, tt) : bkey F 1 unit_eqType) = (- v, tt).
Proof. by rewrite /brot /= mul_mx_scalar scaleN1r. Qed.
Lemma neq1N : (const_mx 1 : 'rV[F]_1) != - const_mx 1.
Proof. by apply/eqP => /rowP /(_ 0) /eqP; rewrite !mxE -subr_eq0 opprK -mulr2n pnatr_eq0. Qed.
Lemma apply_inv1 (vs : seq 'rV[F]_1) : uniq vs ->
  bloch_apply tt id inversion1 (hop vs) = Ok (hop [seq - v | v <- vs]).
Proof.
move=> u; rewrite /bloch_apply /pge_apply_bloch /= /bloch_rotate inv1 dict_of_uniq; last first.
  rewrite /dkeys /= -!map_comp.
  rewrite (eq_map (f2 := fun v : 'rV[F]_1 => (- v, tt) : bk)) => [|v /=]; last exact: brot1.
  by rewrite map_inj_uniq // => x y [/oppr_inj].
rewrite /mmap /= /hop -!map_comp; congr (Ok (Mk _ _ _)); apply: eq_map => v /=.
by rewrite mul1mx dagger1 mulmx1 brot1.
Qed.

Example C32_cosine (v := const_mx 1 : 'rV[F]_1) : exists2 result,
  constrain_family b1 (fun g m => bloch_apply tt id g m) xpredT (fun g => pU g != None)
    (fun N => @ker_rows F N) [:: inversion1] [:: hop [:: v]; hop [:: - v]] = Ok result &
  fspan b1 result (hop [:: v; - v]) /\ ~ fspan b1 result (hop [:: v]).
Proof.
have u : ((-1)%:M : 'M[F]_1) \in unitmx by rewrite unitmxE det_scalar expr1 unitrN1.
have nv := neq1N; have vv : uniq [:: v; - v] by rewrite /= inE nv.
have gf m : List.In m [:: hop [:: v]; hop [:: - v]] -> good b1 tt m by case=> [<-|[<-|//]].
have L : forall s, List.In s [:: inversion1] -> lin_op b1 tt (fun m => bloch_apply tt id s m).
  move=> s [<-|//]; apply: lop_linop.
  exact: (@pge_apply_bloch_lop F 1 0 unit_eqType tt (fun _ _ => tt) id (fun=> erefl) unit_eqType tt inversion1 u).
have [_ [|result E]] := @C33_accepts_iff _ _ _ _ b1 _ _ (fun g m => bloch_apply tt id g m) xpredT (fun g => pU g != None) tt (fun N => @ker_rows F N) [:: inversion1] [:: hop [:: v]; hop [:: - v]] isT L (fun s => ltac:(by case=> [<-|//])) gf.
  split=> // _ m k [<-|[<-|//]] kd; exists inversion1.
    by exists (hop [:: - v]), (hop [:: v]); rewrite apply_inv1 //= opprK; split=> //; [left|right; left].
  by exists (hop [:: v]), (hop [:: - v]); rewrite apply_inv1 //; split=> //; [left|left].
exists result => //.
have [_ H] := C32_constrain_family (@ker_rows_exact F) L gf E.
have g2 : good b1 tt (hop [:: v; - v]).
  by split=> //; rewrite /wf_model /wf_dict /dkeys /= inE eqE /= andbT (negPf nv).
have S vs : uniq vs -> symmetric b1 (fun g m => bloch_apply tt id g m) xpredT inversion1 (hop vs) <->
    forall k, dget b1 (mdata (hop [seq - w | w <- vs])) (Sym k) = dget b1 (mdata (hop vs)) (Sym k).
  by move=> uv; split=> [[m']|h]; [rewrite apply_inv1 // => -[<-]|exists (hop [seq - w | w <- vs]); rewrite ?apply_inv1].
split.
  apply/(H _ g2); split; last first.
    move=> s [<-|//]; apply/S => // k; rewrite /= /pk_eq /= opprK.
    by rewrite ![k == _]eq_sym; case: eqP => [<-|_]; rewrite ?eqE /= ?andbT ?(negPf nv) //; case: ifP.
  exists (fun=> 1) => k; rewrite /FamilyProofs.fcoef /= !big_ord_recl big_ord0 /= !scale1r addr0 /pk_eq /=.
  case: eqP => [->|_]; last by rewrite add0r.
  by rewrite eqE /= (negPf nv) addr0.
have g1 : good b1 tt (hop [:: v]) by [].
move=> /(H _ g1) [_ /(_ inversion1 (or_introl erefl))] /S => /(_ isT (v, tt)).
rewrite /= /pk_eq /= !eqE /= eqxx (negPf nv) /=.
by move=> /matrixP /(_ 0 0); rewrite eqxx !mxE /= => /eqP; rewrite eq_sym oner_eq0.
Qed.
End Example.
