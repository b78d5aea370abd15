(* C49, C50: ContinuousGroupGenerator, qsymm/groups.py:513-575. *)
From mathcomp Require Import all_ssreflect all_algebra.
From mathcomp Require Import complex realalg.
From Verif Require Import Prelude ModelCore ModelProofs PGE PGEProofs Keys KeysProofs PropModel.

Set Implicit Arguments.
Unset Strict Implicit.
Unset Printing Implicit Defensive.
Import GRing.Theory Num.Theory.
Local Open Scope ring_scope.
Local Open Scope complex_scope.

(* ---- C49: validation in __init__, groups.py:82-87, 534-540 (exact comparisons) ---- *)
Section Init.
Variables (F : rcfType) (d n : nat).
Local Notation C := F[i].
Definition is_hermitian m (A : 'M[C]_m) : bool := A == dagger A.
Definition is_antisymmetric m (A : 'M[C]_m) : bool := A == - A^T.
Definition cgg_init (R : option 'M[C]_d) (U : option 'M[C]_n) : res (option 'M[C]_d * option 'M[C]_n) :=
  if (if R is Some R' then ~~ is_hermitian R' && ~~ is_antisymmetric R' else false) then Err ValueError
  else if (if U is Some U' then ~~ is_hermitian U' else false) then Err ValueError
  else Ok (R, U).

(* what is actually enforced: U is Hermitian, and R is Hermitian OR antisymmetric *)
Theorem C49_what_is_enforced R U :
  (exists o, cgg_init R U = Ok o) <->
  (forall R', R = Some R' -> R' = dagger R' \/ R' = - R'^T) /\
  (forall U', U = Some U' -> U' = dagger U').
Proof.
rewrite /cgg_init /is_hermitian /is_antisymmetric; split.
- case; case: ifP => // /negbT h1; case: ifP => // /negbT h2 o _; split=> [R' E|U' E].
    by move: h1; rewrite E negb_and !negbK => /orP[] /eqP; [left|right].
  by move: h2; rewrite E negbK => /eqP.
- case=> hR hU.
  have -> : (if R is Some R' then (R' != dagger R') && (R' != - R'^T) else false) = false.
    by case: R hR => [R|//] /(_ _ erefl) [] /eqP ->; rewrite ?andbF.
  have -> : (if U is Some U' then U' != dagger U' else false) = false.
    by case: U hU => [U|//] /(_ _ erefl) /eqP ->.
  by exists (R, U).
Qed.
End Init.

(* C49 is false: R = 1 is Hermitian, not antisymmetric, and accepted *)
Theorem C49_validation_refuted :
  exists (R : 'M[realalg_rcfType[i]]_1) o, cgg_init (Some R) (None : option 'M[realalg_rcfType[i]]_1) = Ok o /\
    R <> - R^T.
Proof.
exists 1%:M; eexists; split.
  by rewrite /cgg_init /is_hermitian dagger1 eqxx /=; reflexivity.
rewrite trmx1 => /matrixP /(_ 0 0); rewrite !mxE eqxx => /eqP.
by rewrite -subr_eq0 opprK -[1 + 1](natrD _ 1 1) pnatr_eq0.
Qed.

Section Apply.
Variables (F : rcfType) (d n : nat) (P : eqType) (pone : P) (pmul : P -> P -> P) (pc : P -> P).
Hypothesis pcK : involutive pc.
Variable (Mom : eqType).
Local Notation C := F[i].
Local Notation key := (key F d P).
Local Notation mat := [lmodType C of 'M[C]_n.+1].
Local Notation kmodel := (model [eqType of key] Mom mat).
Local Notation ass := (assignment F d pone pmul pc).
Let ko : [eqType of key] := kone F d pone.
Implicit Types (a : ass).

(* value at a of the derivative of a key with respect to k_i, by the product rule *)
Definition dkey a (i : 'I_d) (x : key) : C :=
  (('X^(kpow x i))^`()).[(as_k a i 0)%:C] * (\prod_(j | j != i) (as_k a j 0)%:C ^+ kpow x j)
    * as_cis a ((khop x *m as_k a) 0 0) * as_par a (kpar x)
  + 'i * (khop x 0 i)%:C * kev a x.

(* derivative of the model *)
Definition dmodel a (i : 'I_d) (m : kmodel) : 'M[C]_n.+1 := meval ko (dkey a i) m.

(* the documented action: i (H U - U H) + i dH/dk_i R_ij k_j *)
Definition generator_action a (R : option 'M[C]_d) (U : option 'M[C]_n.+1) (m : kmodel) : 'M[C]_n.+1 :=
  (if R is Some R' then 'i *: \sum_i \sum_j (R' i j * (as_k a j 0)%:C) *: dmodel a i m else 0)
  + (if U is Some U' then 'i *: (ker a m *m U' - U' *m ker a m) else 0).

Lemma dpev (k : 'cV[F]_d) (p : pw d) i :
  (p i)%:R * pev k (pwdec p i) = (('X^(p i))^`()).[(k i 0)%:C] * \prod_(j | j != i) (k j 0)%:C ^+ p j.
Proof.
rewrite derivXn hornerMn hornerXn /pev (bigD1 i) //= ffunE eqxx subn1 mulrA mulr_natl; congr (_ * _).
by apply: eq_bigr => j ne; rewrite ffunE (negPf ne) subn0.
Qed.

Lemma kder_value a (R : 'M[C]_d) x :
  \sum_(ck <- kder R x) kev a ck.2 * ck.1 = \sum_i \sum_j (R i j * (as_k a j 0)%:C) * dkey a i x.
Proof.
rewrite /kder big_flatten /= big_allpairs_dep /= big_enum /=; apply: eq_bigr => i _.
rewrite big_enum /=; apply: eq_bigr => j _.
rewrite !big_cons big_nil addr0 /= /kev /dkey /= -dpev !pevD pev_e.
set c := as_cis _ _; set q := as_par _ _; set kj := (as_k a j 0)%:C.
rewrite mulrDr /kev -/c -/q; congr (_ + _).
- by rewrite (AC (4*2) (6*2*(5*1*3*4))).
- by rewrite (AC (4*3) (7*2*(5*6*(1*3*4)))).
Qed.

Lemma transform_der (R : 'M[C]_d) (m : kmodel) : all_sym m ->
  exists m', [/\ transform_symbolic ko (kder R) m = Ok m', wf_model ko m', mmom m' = mmom m
   & forall a, ker a m' = \sum_i \sum_j (R i j * (as_k a j 0)%:C) *: dmodel a i m].
Proof.
move=> s; have [m' [E w mo _]] := transform_props ko (fun=> 0) (kder R) s.
exists m'; split=> // b; have [m'' [E' _ _]] := transform_props ko (kev b) (kder R) s.
have -> : m'' = m' by move: E'; rewrite E => -[].
rewrite /ker => ->; rewrite /dmodel /meval.
under [RHS]eq_bigr => i _ do under eq_bigr => j _ do rewrite scaler_sumr.
under [RHS]eq_bigr => i _ do rewrite exchange_big.
rewrite [RHS]exchange_big; apply: eq_bigr => kv _.
rewrite -scaler_suml kder_value scaler_suml; apply: eq_bigr => i _.
by rewrite scaler_suml; apply: eq_bigr => j _; rewrite scalerA.
Qed.

(* C50: apply evaluates to the documented expression *)
Theorem C50_apply_value R U (m : kmodel) : all_sym m -> wf_model ko m ->
  exists m', [/\ cgg_apply pone R U m = Ok m', wf_model ko m', mmom m' = mmom m
    & forall a, ker a m' = generator_action a R U m].
Proof.
move=> s w; rewrite /cgg_apply -/ko.
have [r [-> wr mr er]] : exists r : kmodel,
  [/\ (if (if R is Some R' then if R' == 0 then None else Some R' else None) is Some R' then
      do t <- transform_symbolic ko (kder R') m; madd ko (zeros_like mat m) (mscale 'i t)
    else Ok (zeros_like mat m)) = Ok r, wf_model ko r, mmom r = mmom m &
    forall a, ker a r = if R is Some R' then 'i *: \sum_i \sum_j (R' i j * (as_k a j 0)%:C) *: dmodel a i m else 0].
  case: R => [R|]; last by exists (zeros_like mat m); split=> // a; rewrite /ker meval_nil.
  case: eqP => [->|_].
    exists (zeros_like mat m); split=> // a; rewrite /ker meval_nil // big1 ?scaler0 // => i _.
    by rewrite big1 // => j _; rewrite mxE mul0r scale0r.
  have [t [-> wt mt et]] := transform_der R s.
  have wt' : wf_model ko (mscale 'i t) by rewrite mscale_wf.
  have w0 : wf_model ko (zeros_like mat m) by [].
  have [|c [Ec wc mc ec]] := C12_add w0 wt'; first by rewrite /= mt.
  exists c; split=> // a; rewrite /ker ec meval_nil // add0r mscale_eval; last by move=> k; rewrite mulrC.
  by rewrite -/(ker a t) et.
case: U => [U|] /=; last first.
  by exists r; split=> // a; rewrite er /generator_action addr0.
case: eqP => [->|_] /=.
  by exists r; split=> // a; rewrite er /generator_action mulmx0 mul0mx subrr scaler0 addr0.
have w1 : wf_model ko (mmap (W := mat) (fun A => A *m ('i *: U)) m) by rewrite mmap_wf.
have w2 : wf_model ko (mmap (W := mat) (fun A => (- 'i *: U) *m A) m) by rewrite mmap_wf.
have [//|c [-> wc mc ec]] := C12_add w1 w2.
have [|c' [Ec' wc' mc' ec']] := C12_add wr wc; first by rewrite mr mc.
exists c'; split=> //; first by rewrite mc'.
move=> a; rewrite /generator_action -er /ker ec' ec; congr (_ + _).
rewrite (@eval_mmap _ ko _ Mom mat mat (fun A : mat => A *m ('i *: U) : mat)); first last.
- by move=> z v; rewrite -scalemxAl.
- by move=> v v'; rewrite mulmxDl.
rewrite (@eval_mmap _ ko _ Mom mat mat (fun A : mat => (- 'i *: U) *m A : mat)); first last.
- by move=> z v; rewrite -scalemxAr.
- by move=> v v'; rewrite mulmxDr.
by rewrite -scalemxAl -scalemxAr scaleNr scalerBr.
Qed.

(* linear *)
Lemma generator_actionD a R U (x y z : kmodel) :
  (forall ev, meval ko ev z = meval ko ev x + meval ko ev y) ->
  generator_action a R U z = generator_action a R U x + generator_action a R U y.
Proof.
move=> H; rewrite /generator_action /ker /dmodel H addrACA; congr (_ + _).
- case: R => [R|]; rewrite ?addr0 // -scalerDr -big_split; congr (_ *: _); apply: eq_bigr => i _.
  by rewrite -big_split; apply: eq_bigr => j _ /=; rewrite H scalerDr.
- case: U => [U|]; rewrite ?addr0 // -scalerDr mulmxDl mulmxDr opprD; congr (_ *: _).
  by rewrite addrACA.
Qed.

Theorem C50_apply_additive R U (x y : kmodel) :
  all_sym x -> all_sym y -> wf_model ko x -> wf_model ko y -> mmom x = mmom y ->
  exists z x' y' z', [/\ madd ko x y = Ok z,
    cgg_apply pone R U x = Ok x' /\ cgg_apply pone R U y = Ok y', cgg_apply pone R U z = Ok z'
    & forall a, ker a z' = ker a x' + ker a y'].
Proof.
move=> sx sy wx wy mxy.
have [z [Ez wz mz ez]] := C12_add wx wy mxy.
have sz : all_sym z.
  by have := all_sym_madd' ko sx sy; rewrite /madd' Ez.
have [x' [Ex _ _ ex]] := C50_apply_value R U sx wx.
have [y' [Ey _ _ ey]] := C50_apply_value R U sy wy.
have [z' [Ez' _ _ ez']] := C50_apply_value R U sz wz.
exists z, x', y', z'; split=> // a; rewrite ex ey ez'.
exact: generator_actionD.
Qed.

Theorem C50_apply_scale R U (c : C) (x : kmodel) : all_sym x -> wf_model ko x ->
  exists x' z', [/\ cgg_apply pone R U x = Ok x', cgg_apply pone R U (mscale c x) = Ok z'
    & forall a, ker a z' = c *: ker a x'].
Proof.
move=> sx wx; have [x' [Ex _ _ ex]] := C50_apply_value R U sx wx.
have [||z' [Ez _ _ ez]] := @C50_apply_value R U (mscale c x).
- by rewrite mscale_sym.
- by rewrite mscale_wf.
exists x', z'; split=> // a; rewrite ex ez /generator_action.
have H ev : meval ko ev (mscale c x) = c *: meval ko ev x.
  by rewrite mscale_eval // => k; rewrite mulrC.
rewrite scalerDr /dmodel /ker; congr (_ + _).
- case: R {Ex ex Ez ez} => [R|]; rewrite ?scaler0 // scalerA mulrC -scalerA; congr (_ *: _).
  rewrite scaler_sumr; apply: eq_bigr => i _; rewrite scaler_sumr; apply: eq_bigr => j _.
  by rewrite H !scalerA mulrC.
- case: U {Ex ex Ez ez} => [U|]; rewrite ?scaler0 // H -scalemxAl -scalemxAr -scalerBr.
  by rewrite !scalerA mulrC.
Qed.

(* product rule for keys *)
Lemma dec_mul (k : 'cV[F]_d) (p q : pw d) i :
  (pwadd p q i)%:R * pev k (pwdec (pwadd p q) i) =
  (p i)%:R * pev k (pwdec p i) * pev k q + pev k p * ((q i)%:R * pev k (pwdec q i)).
Proof.
have H (p' q' : pw d) : (p' i)%:R * pev k (pwdec (pwadd p' q') i) = (p' i)%:R * pev k (pwdec p' i) * pev k q'.
  case E: (p' i) => [|x]; first by rewrite !mul0r.
  rewrite -mulrA -pevD; congr (_ * pev k _); apply/ffunP => j; rewrite !ffunE.
  case: eqP => [->|_]; last by rewrite !subn0.
  by rewrite E addSn !subn1.
rewrite ffunE natrD mulrDl H; congr (_ + _).
have -> : pwadd p q = pwadd q p by apply/ffunP => j; rewrite !ffunE addnC.
by rewrite H mulrC.
Qed.

Lemma dkey_mul a i x y :
  dkey a i (kmul pmul x y) = dkey a i x * kev a y + kev a x * dkey a i y.
Proof.
rewrite /dkey kev_mul -!dpev dec_mul /= mulmxDl mxE as_cisD as_parM.
have E : ((khop x + khop y) 0 i)%:C = (khop x 0 i)%:C + (khop y 0 i)%:C :> C by rewrite mxE rmorphD.
rewrite E /kev.
move: (as_cis a _) (as_cis a _) (as_par a _) (as_par a _) (pev _ (kpow x)) (pev _ (kpow y)).
move: ((_)%:R * pev _ _) ((_)%:R * pev _ _) ((khop x 0 i)%:C) ((khop y 0 i)%:C) ('i : C).
move=> A B h1 h2 I c1 c2 q1 q2 p1 p2.
rewrite !(mulrDl, mulrDr) addrACA; congr (_ + _ + (_ + _)).
- by rewrite (AC (2*2*2) (1*3*5*(2*4*6))).
- by rewrite (AC (2*2*2) (1*3*5*(2*4*6))).
- by rewrite (AC (2*(3*3)) (1*2*(3*4*5)*(6*7*8))).
- by rewrite (AC (2*(3*3)) ((3*4*5)*(1*2*(6*7*8)))).
Qed.

Lemma dmodel_mul a i (x y z : kmodel) :
  mkeep x = [::] -> mkeep y = [::] ->
  mmul ko (kmul pmul) (fun A B => A *m B : mat) x y = Ok z ->
  dmodel a i z = dmodel a i x *m ker a y + ker a x *m dmodel a i y.
Proof.
move=> kx ky; case E: (mmom x == mmom y); last by rewrite /mmul E.
have [c [-> _ _ _ H] [<-]] := @mmul_props [eqType of key] ko (kmul pmul) _ Mom (dkey a i) mat mat mat
   (fun A B => A *m B) x y (eqP E).
rewrite /dmodel H kx ky /= /ker /meval !mulmx_suml -big_split; apply: eq_bigr => kv _.
rewrite !mulmx_sumr -big_split; apply: eq_bigr => kw _ /=.
by rewrite dkey_mul scalerDl -!scalemxAl -!scalemxAr !scalerA.
Qed.

Lemma mmul_all_sym (x y z : kmodel) :
  mmul ko (kmul pmul) (fun A B => A *m B : mat) x y = Ok z -> all_sym z.
Proof.
rewrite /mmul; case: ifP => // _ [<-]; set terms := flatten _.
have Ht m : List.In m terms -> all_sym m.
  rewrite /terms; elim: (mdata x) => //= kv l IH /In_cat [|]; last exact: IH.
  elim: (mdata y) => //= kw l' IH'; case: ifP => kk //=; case=> [<-|]; last exact: IH'.
  by rewrite construct1.
case TT: terms Ht => [|t ts] Ht //; apply: all_sym_msum; first by apply: Ht; left.
by move=> m Hm; apply: Ht; right.
Qed.

(* Leibniz rule *)
Theorem C50_leibniz R U (x y : kmodel) :
  all_sym x -> all_sym y -> wf_model ko x -> wf_model ko y -> mmom x = mmom y ->
  mkeep x = [::] -> mkeep y = [::] ->
  exists z x' y' z', [/\ mmul ko (kmul pmul) (fun A B => A *m B : mat) x y = Ok z,
     cgg_apply pone R U x = Ok x' /\ cgg_apply pone R U y = Ok y',
     cgg_apply pone R U z = Ok z' & forall a, ker a z' = ker a x' *m ker a y + ker a x *m ker a y'].
Proof.
move=> sx sy wx wy mxy kx ky.
have [z [Ez wz _ _ ez]] := C13_product ko (kmul pmul : key -> _) (bilinear_mulmx _ n.+1 n.+1 n.+1) mxy kx ky.
have sz := mmul_all_sym Ez.
have [x' [Ex _ _ ex]] := C50_apply_value R U sx wx.
have [y' [Ey _ _ ey]] := C50_apply_value R U sy wy.
have [z' [Ez' _ _ ez']] := C50_apply_value R U sz wz.
exists z, x', y', z'; split=> // a; rewrite ex ey ez' /generator_action.
rewrite mulmxDl mulmxDr addrACA; congr (_ + _).
- case: R {Ex ex Ey ey Ez' ez'} => [R|]; rewrite ?mul0mx ?mulmx0 ?addr0 //.
  rewrite -scalemxAl -scalemxAr -scalerDr; congr (_ *: _).
  rewrite mulmx_suml mulmx_sumr -big_split; apply: eq_bigr => i _ /=.
  rewrite mulmx_suml mulmx_sumr -big_split; apply: eq_bigr => j _ /=.
  by rewrite (dmodel_mul a i kx ky Ez) -scalemxAl -scalemxAr -scalerDr.
- case: U {Ex ex Ey ey Ez' ez'} => [U|]; rewrite ?mul0mx ?mulmx0 ?addr0 //.
  rewrite -scalemxAl -scalemxAr -scalerDr; congr (_ *: _).
  rewrite /ker ez; last by move=> u v; apply: kev_mul.
  by rewrite mulmxBl mulmxBr !mulmxA [RHS]addrC addrA subrK.
Qed.

(* Hermitian models: equal, as dictionaries, to their own adjoint *)
Local Notation coef m k := (dget ko (mdata m) (Sym (k : [eqType of key]))).
Definition hermitian_model (m : kmodel) : Prop :=
  forall k : key, coef m (kconj pc k) = dagger (coef m k).

Lemma dagger_sum (I : Type) (r : seq I) (f : I -> 'M[C]_n.+1) :
  dagger (\sum_(i <- r) f i) = \sum_(i <- r) dagger (f i).
Proof. by rewrite (big_morph (@dagger F n.+1 n.+1) (id1 := 0) (op1 := +%R)) ?dagger0 // => x y; apply: daggerD. Qed.

Lemma hermitian_meval (m : kmodel) (ev : key -> C) : wf_model ko m ->
  (forall k, ev (kconj pc k) = conjc (ev k)) -> hermitian_model m ->
  dagger (meval ko ev m) = meval ko ev m.
Proof.
move=> w evc H; pose ks := undup (dkeys ko (mdata m) ++ map (kconj pc) (dkeys ko (mdata m))).
have E : meval ko ev m = \sum_(k <- ks) ev k *: coef m k.
  rewrite mevalE (@deval_keys _ ko _ ev _ _ ks) ?undup_uniq // => x Hx.
  by rewrite mem_undup mem_cat Hx.
have pk : perm_eq [seq kconj pc k | k <- ks] ks.
  apply: uniq_perm; rewrite ?undup_uniq ?map_inj_uniq ?undup_uniq //; first exact: inv_inj (kconjK pcK).
  have kK := @kconjK F d P pc pcK.
  move=> k; apply/mapP/idP => [[k' + ->]|].
    rewrite !mem_undup !mem_cat => /orP[h|/mapP [k'' h ->]]; last by rewrite kK h.
    by rewrite orbC; apply/orP; left; apply/mapP; exists k'.
  move=> h; exists (kconj pc k); last by rewrite kK.
  move: h; rewrite !mem_undup !mem_cat => /orP[h|/mapP [k'' h ->]]; last by rewrite kK h.
  by rewrite orbC; apply/orP; left; apply/mapP; exists k.
rewrite E -[in RHS](perm_big _ pk) big_map /=.
rewrite dagger_sum; apply: eq_bigr => k _.
by rewrite daggerZ evc H.
Qed.

Lemma dkey_conj a i k : dkey a i (kconj pc k) = conjc (dkey a i k).
Proof.
rewrite /dkey -!dpev kev_conj rmorphD !rmorphM /= pev_conj as_cisN as_parJ mulNmx !mxE rmorph_nat.
congr (_ + _ * _); first by rewrite -[X in _ * X * _ * _ = _]pev_conj.
by apply/eqP; rewrite eq_complex /= oppr0 !(mul0r, mul1r, mulr0, oppr0, subr0, addr0, add0r, sub0r, mulN1r, opprK, mulNr, oppr0) !eqxx.
Qed.

Theorem C50_preserves_hermiticity (R : option 'M[C]_d) (U : option 'M[C]_n.+1) (x : kmodel) :
  (forall R', R = Some R' -> R' = dagger R' /\ R' = - R'^T) ->
  (forall U', U = Some U' -> U' = dagger U') ->
  all_sym x -> wf_model ko x -> hermitian_model x ->
  exists x', cgg_apply pone R U x = Ok x' /\ forall a, dagger (ker a x') = ker a x'.
Proof.
move=> hR hU sx wx H; have [x' [Ex _ _ ex]] := C50_apply_value R U sx wx; exists x'; split=> // a.
have Ha : dagger (ker a x) = ker a x.
  by apply: hermitian_meval => // k; apply: kev_conj.
rewrite ex /generator_action daggerD; congr (_ + _).
- case: R hR {Ex ex} => [R|] hR; last by rewrite dagger0.
  have [R1 R2] := hR _ erefl.
  have Rc i j : conjc (R i j) = - R i j.
    by rewrite {2}R2 mxE opprK {1}R1 !mxE conjcK.
  rewrite daggerZ dagger_sum !scaler_sumr; apply: eq_bigr => i _.
  rewrite dagger_sum !scaler_sumr; apply: eq_bigr => j _ /=.
  have Hi : dagger (dmodel a i x) = dmodel a i x by apply: hermitian_meval => // k; apply: dkey_conj.
  rewrite daggerZ Hi (rmorphM (conjc_rmorphism F)) [conjc_rmorphism F _]Rc [conjc_rmorphism F _]realc_conj !scalerA.
  by rewrite mulNr mulrN -mulNr; congr (_ * _ *: _); apply/eqP; rewrite eq_complex /= !oppr0 opprK !eqxx.
- case: U hU {Ex ex} => [U|] hU; last by rewrite dagger0.
  have U1 := hU _ erefl.
  rewrite daggerZ daggerD daggerN !daggerM Ha -U1.
  have -> : conjc ('i : C) = - 'i by apply/eqP; rewrite eq_complex /= oppr0 !eqxx.
  by rewrite scaleNr -scalerN opprB.
Qed.

(* a multiple of the identity without momentum dependence is annihilated *)
Theorem C50_annihilates_constants R U (x : kmodel) (c : C) (q : P) keep mom :
  x = Mk [:: (Sym ((pw0 d, 0, q) : [eqType of key]), c%:M)] keep mom ->
  exists x', cgg_apply pone R U x = Ok x' /\ forall a, ker a x' = 0.
Proof.
move=> Ex; have sx : all_sym x by rewrite Ex.
have wx : wf_model ko x by rewrite Ex.
have [x' [E _ _ e]] := C50_apply_value R U sx wx; exists x'; split=> // a; rewrite e /generator_action.
have d0 i : dmodel a i x = 0.
  rewrite /dmodel Ex /meval big_seq1 /dkey /= ffunE expr0 derivC hornerC !mxE !(mul0r, mulr0, addr0).
  by rewrite scale0r.
have k0 : exists z, ker a x = z%:M.
  by rewrite /ker Ex /meval big_seq1 /= scale_scalar_mx; eexists.
case: k0 => z ->; case: U {E e} => [U|]; case: R => [R|]; rewrite ?mul_scalar_mx ?mul_mx_scalar ?subrr ?scaler0 ?addr0 ?add0r //.
all: by rewrite big1 ?scaler0 // => i _; rewrite big1 // => j _; rewrite d0 scaler0.
Qed.
End Apply.

(* Rotations about z: R = [[0, -i], [i, 0]] sends k_x to k_y, and k_x^2 + k_y^2 to 0. *)
Section Example.
Local Notation A := realalg_rcfType.
Let ekey := [eqType of key A 2 unit_eqType].
Let emodel := model ekey unit_eqType [lmodType A[i] of 'M[A[i]]_1].
Let ass := assignment A 2 tt (fun _ _ => tt) id.
Definition Lz : 'M[A[i]]_2 := \matrix_(i, j) (if (i == 0) && (j == 1) then - 'i else if (i == 1) && (j == 0) then 'i else 0).
Let kx := Mk [:: (Sym ((pwe 0, 0, tt) : ekey), 1%:M)] [::] tt : emodel.
Let k2 := Mk [:: (Sym ((pwadd (pwe 0) (pwe 0), 0, tt) : ekey), 1%:M); (Sym ((pwadd (pwe 1) (pwe 1), 0, tt) : ekey), 1%:M)] [::] tt : emodel.

Example C49_Lz_accepted : cgg_init (Some Lz) (None : option 'M[A[i]]_1) = Ok (Some Lz, None).
Proof.
have H : is_hermitian Lz.
  apply/eqP/matrixP => i j; rewrite !mxE.
  by case: i => [[|[|//]] ?]; case: j => [[|[|//]] ?]; rewrite //=; apply/eqP; rewrite eq_complex /= ?oppr0 ?opprK !eqxx.
by rewrite /cgg_init H.
Qed.

Let II : - ('i * 'i) = 1 :> A[i].
Proof. by apply/eqP; rewrite eq_complex /= !(mul0r, mulr0, mul1r, mulr1, addr0, add0r, sub0r, opprK, oppr0) !eqxx. Qed.

Example C50_Lz_kx : exists x', cgg_apply tt (Some Lz) None kx = Ok x' /\
  forall a : ass, ker a x' = (as_k a 1 0)%:C%:M.
Proof.
have [||x' [E _ _ e]] := @C50_apply_value _ _ _ _ tt (fun _ _ => tt) id unit_eqType (Some Lz) None kx => //.
have D (a : ass) i : dmodel a i kx = ((i == 0)%:R : A[i])%:M.
  have Z : ((0 : 'rV[A]_2) 0 i)%:C = 0 :> A[i] by rewrite mxE.
  rewrite /dmodel /meval big_seq1 /dkey /khop /kpow /kpar /= Z mulr0 mul0r addr0 mul0mx [X in as_cis _ X]mxE as_cis0 as_par1 !mulr1.
  rewrite -dpev ffunE scale_scalar_mx mulr1 eq_sym.
  case: eqP => [<-|]; last by rewrite mul0r.
  have -> : pwdec (pwe 0) 0 = pw0 2 by apply/ffunP => j; rewrite !ffunE; case: (j == 0).
  by rewrite pev0 mulr1.
exists x'; split=> // a; rewrite e /generator_action addr0 !big_ord_recl !big_ord0 !addr0 !D.
rewrite !mxE /= !(mul0r, scale0r, add0r, addr0, scale_scalar_mx, mulr0, mulr1).
have -> : lift ord0 (ord0 : 'I_1) = 1 by apply/val_inj.
by rewrite raddf0 !(addr0, add0r) scale_scalar_mx mulNr mulrN mulrA -mulNr II mul1r.
Qed.
End Example.

Print Assumptions C49_what_is_enforced.
Print Assumptions C49_validation_refuted.
Print Assumptions C50_apply_value.
Print Assumptions C50_apply_additive.
Print Assumptions C50_apply_scale.
Print Assumptions C50_leibniz.
Print Assumptions C50_preserves_hermiticity.
Print Assumptions C50_annihilates_constants.
