(* C75, C76: continuum_pairing *)
From mathcomp Require Import all_ssreflect all_algebra.
From mathcomp Require Import complex.
From Verif Require Import Prelude ModelCore ModelProofs PGE PGEProofs Keys KeysProofs PropApply PropCGG LinSpan NullSpec Linalg MatBasisProofs
  Family FamilyProofs PropFamily FamilyOps PropConstrain Continuum GradedOps PolyExt PropContinuum Pairing.

Set Implicit Arguments.
Unset Strict Implicit.
Unset Printing Implicit Defensive.
Import GRing.Theory Num.Theory.
Local Open Scope ring_scope.
Local Open Scope complex_scope.

Section Blocks.
Variables (F : rcfType) (n : nat).
Local Notation C := F[i].
Local Notation n2 := (n + n.+1)%N.
Local Notation rc := [rmorphism of real_complex F].
Implicit Types (A B D E X Y : 'M[C]_n.+1).

Lemma block2M A B D E A' B' D' E' : block2 A B D E *m block2 A' B' D' E' =
  block2 (A *m A' + B *m D') (A *m B' + B *m E') (D *m A' + E *m D') (D *m B' + E *m E').
Proof. exact: (@mulmx_block _ n.+1 n.+1 n.+1 n.+1 n.+1 n.+1). Qed.
Lemma block2D A B D E A' B' D' E' : block2 A B D E + block2 A' B' D' E' = block2 (A + A') (B + B') (D + D') (E + E').
Proof. exact: (@add_block_mx _ n.+1 n.+1 n.+1 n.+1). Qed.
Lemma block2Z (a : C) A B D E : a *: block2 A B D E = block2 (a *: A) (a *: B) (a *: D) (a *: E).
Proof. exact: (@scale_block_mx _ n.+1 n.+1 n.+1 n.+1). Qed.
Lemma block2_inj A B D E A' B' D' E' : block2 A B D E = block2 A' B' D' E' -> [/\ A = A', B = B', D = D' & E = E'].
Proof. exact: (@eq_block_mx _ n.+1 n.+1 n.+1 n.+1). Qed.
Lemma block2_conj A B D E : mxconj (block2 A B D E) = block2 (mxconj A) (mxconj B) (mxconj D) (mxconj E).
Proof. exact: (@map_block_mx _ _ (@conjc F) n.+1 n.+1 n.+1 n.+1). Qed.
Lemma block2_tr A B D E : (block2 A B D E)^T = block2 A^T D^T B^T E^T.
Proof. exact: (@tr_block_mx _ n.+1 n.+1 n.+1 n.+1). Qed.
Lemma block2_dagger A B D E : dagger (block2 A B D E) = block2 (dagger A) (dagger D) (dagger B) (dagger E).
Proof. by rewrite /dagger block2_tr block2_conj. Qed.
Lemma block2P (X : 'M[C]_n2.+1) : exists A B D E, X = block2 A B D E.
Proof.
exists (ulsubmx (X : 'M_(n.+1 + n.+1))), (ursubmx (X : 'M_(n.+1 + n.+1))), (dlsubmx (X : 'M_(n.+1 + n.+1))), (drsubmx (X : 'M_(n.+1 + n.+1))).
by rewrite /block2 submxK.
Qed.
Lemma block2_0 : block2 0 0 0 0 = 0 :> 'M[C]_n2.+1.
Proof. exact: (@block_mx0 _ n.+1 n.+1 n.+1 n.+1). Qed.
Lemma block2_1 : block2 1%:M 0 0 1%:M = 1%:M :> 'M[C]_n2.+1.
Proof. exact/esym/(@scalar_mx_block _ n.+1 n.+1). Qed.
Lemma block2_ur A B D E : upper_right (block2 A B D E) = B.
Proof. exact: (@block_mxKur _ n.+1 n.+1 n.+1 n.+1). Qed.

Lemma off_D X Y : off_diagonal (X + Y) = off_diagonal X + off_diagonal Y :> 'M[C]_n2.+1.
Proof. by rewrite /off_diagonal block2D daggerD !addr0. Qed.
Lemma off_Z (a : F) X : off_diagonal (a%:C *: X) = a%:C *: off_diagonal X.
Proof. by rewrite /off_diagonal block2Z daggerZ !scaler0 /conjc /= oppr0. Qed.
Lemma off_0 : off_diagonal (0 : 'M[C]_n.+1) = 0.
Proof. by rewrite /off_diagonal dagger0 block2_0. Qed.
Lemma off_ur X : upper_right (off_diagonal X) = X. Proof. exact: block2_ur. Qed.
Lemma off_inj : injective (@off_diagonal F n).
Proof. by move=> X Y /block2_inj []. Qed.
Lemma off_comb (B : seq 'M[C]_n.+1) c : comb rc [seq off_diagonal m | m <- B] c = off_diagonal (comb rc B c).
Proof.
elim: B c => [|A B IH] c; first by rewrite !comb_nil off_0.
by rewrite [map _ _]/= !comb_cons IH off_D off_Z.
Qed.

(* Hermitian matrices without diagonal blocks *)
Definition pairing_matrix (X : 'M[C]_n2.+1) : Prop := X = off_diagonal (upper_right X).
Lemma pairing_basisE : pairing_basis F n =
  [seq off_diagonal m | m <- matrix_basis n.+1 false false false ++ [seq 'i *: m | m <- matrix_basis n.+1 false false false]].
Proof.
rewrite map_cat -map_comp; congr (_ ++ _); apply: eq_map => m /=; rewrite /off_diagonal daggerZ.
by congr (block2 _ _ (_ *: _) _); simpc.
Qed.
Lemma pairing_basisP : is_basis rc (pairing_basis F n) pairing_matrix.
Proof.
have [bi bs] := C23_complex_span F n.+1 false false; set B := matrix_basis _ _ _ _ in bi bs.
have E c : comb rc (B ++ [seq 'i *: m | m <- B]) c = comb [rmorphism of idfun] B (fun j => c j +i* c (size B + j)%N).
  rewrite comb_cat /comb size_map -big_split; apply: eq_bigr => j _ /=; rewrite (nth_map 0) // scalerA -scalerDl.
  by congr (_ *: _); simpc.
rewrite pairing_basisE; split=> [c|X].
  rewrite off_comb -off_0 => /off_inj; rewrite E => /bi H j; rewrite size_map size_cat size_map => lj.
  case: (ltnP j (size B)) => [lt|ge]; first by have [] := H j lt.
  have lt : (j - size B < size B)%N by rewrite -(ltn_add2l (size B)) subnKC.
  by have [_] := H _ lt; rewrite subnKC.
split=> [->|[c ->]]; last by rewrite off_comb /pairing_matrix off_ur.
have [//|z ez] := (bs (upper_right X)).1.
exists (fun j => if (j < size B)%N then complex.Re (z j) else complex.Im (z (j - size B)%N)).
rewrite off_comb E ez; congr off_diagonal; apply: eq_comb => j lj.
by rewrite lj ltnNge leq_addr /= addKn; case: (z j).
Qed.
End Blocks.

Section Pairing.
Variables (F : rcfType) (d n : nat) (P : eqType) (pone : P) (pmul : P -> P -> P) (pc : P -> P).
Hypothesis pcK : involutive pc.
Hypothesis pc1 : pc pone = pone.
Variables (Mom : eqType) (mom default_mom : Mom).
Local Notation C := F[i].
Local Notation key := (key F d P).
Local Notation n2 := (n + n.+1)%N.
Local Notation mat := [lmodType C of 'M[C]_n.+1].
Local Notation mat2 := [lmodType C of 'M[C]_n2.+1].
Local Notation kmodel := (model [eqType of key] Mom mat).
Local Notation kmodel2 := (model [eqType of key] Mom mat2).
Let ko : [eqType of key] := kone F d pone.
Local Notation coef m k := (dget ko (mdata m) (Sym (k : [eqType of key]))).
Local Notation ker := (ker (pone := pone) (pmul := pmul) (pc := pc)).
Local Notation pt := (@at_point F d P pone pmul pc).
Implicit Types (D : kmodel) (m : kmodel2).

(* the pairing function and its derivatives at a momentum *)
Definition Delta D (v : 'cV[F]_d) : 'M[C]_n.+1 := ker (pt v) D.
Definition dDelta D (v : 'cV[F]_d) (i : 'I_d) : 'M[C]_n.+1 := dmodel (pt v) i D.

(* symmetry of a pairing function: U Delta(k) U^T up to the given phase, and the derivative of this for generators *)
Definition pairing_symmetric (s : symmetry F d n) (phase : C) D : Prop :=
  match s with
  | Discrete g => if pU g is Some U then
      forall v, ((if panti g then -1 else 1) * phase^*) *: (U *m cj (pconj g) (Delta D (pull g v)) *m U^T) = Delta D v
    else False
  | Continuous R oU => if oU is Some U then
      forall v : 'cV[F]_d, (if R is Some R' then \sum_i \sum_j (R' i j * (v j 0)%:C) *: dDelta D v i else 0)
        + (phase *: Delta D v - Delta D v *m mxconj U - U *m Delta D v) = 0
    else False
  end.

(* the matrix of a pairing function in particle-hole space *)
Definition bdg D : kmodel2 := Mk [seq (kv.1, off_diagonal kv.2 : mat2) | kv <- mdata D] (mkeep D) mom.
Lemma coef_bdg D k : coef (bdg D) k = off_diagonal (coef D k).
Proof.
rewrite /bdg /=; elim: (mdata D) => [|kv l IH] /=; first by rewrite off_0.
by rewrite /pk_eq /= IH; case: ifP.
Qed.
Lemma good_bdg D : good ko default_mom D -> good ko mom (bdg D).
Proof.
case=> w s mo; split=> //; first by move: w; rewrite /wf_model /wf_dict /dkeys /= -map_comp.
by move: s; rewrite /all_sym /= all_map.
Qed.
Lemma off_real (z : C) (X : 'M[C]_n.+1) : z^* = z -> off_diagonal (z *: X) = z *: off_diagonal X.
Proof. by rewrite /off_diagonal block2Z daggerZ !scaler0 => ->. Qed.
Lemma meval_bdg (ev : key -> C) D : good ko default_mom D -> hopfree pone D -> (forall k, plain pone k -> (ev k)^* = ev k) ->
  meval ko ev (bdg D) = off_diagonal (meval ko ev D).
Proof.
move=> [w _ _] hf h.
have V kv : List.In kv (mdata D) -> kv.2 != 0 -> plain pone (den ko kv.1).
  move=> hk; have e : coef D (den ko kv.1) = kv.2 by rewrite -(dget_In w hk); apply: dget_den.
  by rewrite -e; apply: hf.
rewrite /ModelCore.meval /bdg /= big_map; elim: (mdata D) V => [|kv l IH] V; first by rewrite !big_nil off_0.
rewrite !big_cons IH ?off_D => [|x hx]; last by apply: V; right.
congr (_ + _) => /=; case: (eqVneq kv.2 0) => [->|/V hp]; first by rewrite scaler0 off_0 scaler0.
by rewrite off_real // h //; apply: hp; left.
Qed.
Lemma ker_bdg D v : good ko default_mom D -> hopfree pone D -> ker (pt v) (bdg D) = off_diagonal (Delta D v).
Proof. by move=> gD hf; apply: meval_bdg => // k _; rewrite kev_point pev_conj. Qed.
Lemma dmodel_bdg D v i : good ko default_mom D -> hopfree pone D -> dmodel (pt v) i (bdg D) = off_diagonal (dDelta D v i).
Proof.
move=> gD hf; apply: meval_bdg => // k [h0 _]; rewrite /dkey -dpev /= !mulr1.
have -> : (khop k 0 i)%:C = 0 :> C by rewrite h0 mxE.
by rewrite mulr0 mul0r addr0 rmorphM /= rmorph_nat pev_conj.
Qed.

Lemma eval_ext N (x y : model [eqType of key] Mom [lmodType C of 'M[C]_N.+1]) ev : good ko mom x -> good ko mom y ->
  (forall k, coef x k = coef y k) -> meval ko ev x = meval ko ev y.
Proof.
move=> gx gy H; have gz : good ko mom (zeros_like [lmodType C of 'M[C]_N.+1] y) by case: gy.
have r : rlin ko (1 : F) y (zeros_like [lmodType C of 'M[C]_N.+1] y) x by move=> k; rewrite H /= addr0 scale1r.
by rewrite (rlin_eval _ gy gz gx r) scale1r {2}/ModelCore.meval big_nil addr0.
Qed.

Section Values.
Variables (N : nat).
Local Notation matN := [lmodType C of 'M[C]_N.+1].
Local Notation modelN := (model [eqType of key] Mom matN).
Local Notation is_sym := (symmetric ko (sym_apply pone pc (Mom := Mom) (n := N)) (@is_discrete F d N)).
Implicit Types (x : modelN).
(* a symmetry of a polynomial is a statement about its values *)
Lemma discrete_values (g : pge F d N) x : good ko mom x -> hopfree pone x ->
  is_sym (Discrete g) x <-> forall v, act g (ker (pt (pull g v)) x) = ker (pt v) x.
Proof.
move=> gx hf; have [w s mo] := gx.
have [x' [E w' s' mo' ev]] := C02_apply_value pone pmul pcK g s.
have gx' : good ko mom x' by split=> //; rewrite mo'.
have [hf' _] := @sym_apply_graded F d N P pone pc pcK pc1 Mom mom (Discrete g) x x' gx hf E.
split=> [[y]|H].
  rewrite /= E => -[<-] H v; transitivity (ker (pt v) x'); first exact/esym/(ev (pt v)).
  exact: eval_ext gx' gx H.
exists x' => // k; apply: (values_determine_model (pmul := pmul) (pc := pc) gx' gx hf' hf) => v.
by rewrite (ev (pt v)) -H.
Qed.
Lemma continuous_values R U x : good ko mom x -> hopfree pone x ->
  is_sym (Continuous R U) x <-> forall v, generator_action (pt v) R U x = 0.
Proof.
move=> gx hf; have [w s mo] := gx.
have [x' [E w' mo' ev]] := @C50_apply_value F d N P pone pmul pc Mom R U x s w.
have [tot _] := sym_apply_lop pone pcK mom (Continuous R U : symmetry F d N).
have gx' : good ko mom x' by have [y [Ey ?]] := tot x gx; move: Ey; rewrite /= E => -[->].
have [hf' _] := @sym_apply_graded F d N P pone pc pcK pc1 Mom mom (Continuous R U) x x' gx hf E.
split=> [[y]|H].
  rewrite /= E => -[<-] H v; rewrite -ev.
  have gz : good ko mom (zeros_like matN x) by [].
  by rewrite /KeysProofs.ker (eval_ext _ gx' gz H) /ModelCore.meval big_nil.
exists x' => // k /=; apply: (values_determine_coefficients (pmul := pmul) (pc := pc) gx' hf') => v.
by rewrite ev H.
Qed.
End Values.

Local Notation is_sym2 := (symmetric ko (sym_apply pone pc (Mom := Mom) (n := n2)) (@is_discrete F d n2)).
(* a generator as required by the documentation, with a real phase *)
Definition valid_generator (s : symmetry F d n) (phase : C) : Prop :=
  if s is Continuous R oU then
    [/\ forall R', R = Some R' -> R' = dagger R' /\ R' = - R'^T, forall U, oU = Some U -> U = dagger U & phase^* = phase]
  else True.

Lemma cj_off c (X : 'M[C]_n.+1) : cj c (off_diagonal X) = off_diagonal (cj c X).
Proof. by case: c => //=; rewrite /off_diagonal block2_conj !mxconj0 dagger_mxconj mxconj_dagger. Qed.
Lemma off_sandwich (U V X : 'M[C]_n.+1) :
  block2 U 0 0 V *m off_diagonal X *m dagger (block2 U 0 0 V) = off_diagonal (U *m X *m dagger V).
Proof.
rewrite /off_diagonal block2_dagger !block2M !dagger0 !(mulmx0, mul0mx, addr0, add0r).
by rewrite !daggerM daggerK mulmxA.
Qed.
Lemma sign_off (b : bool) (X : 'M[C]_n.+1) : (if b then -1 else 1) *: off_diagonal X = off_diagonal ((if b then -1 else 1) *: X).
Proof. by rewrite off_real //; case: b; rewrite ?rmorphN ?rmorph1. Qed.

Lemma extend_symmetric s phase s2 D : extend s phase = Ok s2 -> valid_generator s phase -> good ko default_mom D -> hopfree pone D ->
  is_sym2 s2 (bdg D) <-> pairing_symmetric s phase D.
Proof.
move=> E vg gD hf; have gb := good_bdg gD.
have hb : hopfree pone (bdg D).
  by move=> k; rewrite coef_bdg => nz; apply: hf; apply: contraNneq nz => ->; rewrite off_0.
case: s E vg => [g|R [U|]] /=; [case eU : (pU g) => [U|] //|move|by []].
  case=> <- _; rewrite discrete_values //; set g2 := Pge _ _ _ _ _.
  have act2 v : act g2 (ker (pt (pull g2 v)) (bdg D)) =
      off_diagonal (((if panti g then -1 else 1) * phase^*) *: (U *m cj (pconj g) (Delta D (pull g v)) *m U^T)).
    rewrite ker_bdg // /act /= cj_off sign_off off_sandwich; congr off_diagonal.
    rewrite daggerZ dagger_mxconj -!scalemxAr -!scalemxAl scalerA mulrC.
    by congr (_ *: _).
  split=> H v; first by apply: off_inj; rewrite -act2 H ker_bdg.
  by rewrite act2 H ker_bdg.
case=> <- [hR hU ph]; have {}hU := hU U erefl; rewrite continuous_values //.
have i0 : 'i != 0 :> C by rewrite eq_complex /= oner_eq0 andbF.
have cU : mxconj U = U^T by rewrite {1}hU /dagger mxconjK.
set W := - mxconj U + phase%:M.
have dW : dagger W = W.
  by rewrite /W daggerD daggerN dagger_mxconj -cU; congr (_ + _); rewrite /dagger tr_scalar_mx /mxconj map_scalar_mx /= ph.
have gen v : generator_action (pt v) R (Some (block2 U 0 0 W)) (bdg D) =
   off_diagonal ('i *: ((if R is Some R' then \sum_i \sum_j (R' i j * (v j 0)%:C) *: dDelta D v i else 0)
     + (phase *: Delta D v - Delta D v *m mxconj U - U *m Delta D v))).
  rewrite /generator_action ker_bdg // [in RHS]scalerDr off_D; congr (_ + _).
    case: R hR => [R|] hR; last by rewrite scaler0 off_0.
    have [h1 h2] := hR R erefl.
    have re i j : ('i * (R i j * (v j 0)%:C))^* = 'i * (R i j * (v j 0)%:C).
      have cR : (R i j)^* = - R i j.
        have e1 := congr1 (fun X : 'M[C]_d => X j i) h1; have e2 := congr1 (fun X : 'M[C]_d => X j i) h2.
        by rewrite [RHS]mxE [X in conjc X]mxE in e1; rewrite [RHS]mxE [X in - X]mxE in e2; rewrite -e1 -e2.
      have cv : ((v j 0)%:C : C)^* = (v j 0)%:C by rewrite /conjc /= oppr0.
      rewrite (rmorphM (conjc_rmorphism F)) (rmorphM (conjc_rmorphism F)).
      transitivity (- 'i * (- R i j * (v j 0)%:C)); last by rewrite mulNr mulNr mulrN opprK.
      by congr (_ * (_ * _)); [exact: conj_i|exact: cR|exact: cv].
    rewrite !scaler_sumr (big_morph _ (@off_D F n) (@off_0 F n)); apply: eq_bigr => i _.
    rewrite !scaler_sumr (big_morph _ (@off_D F n) (@off_0 F n)); apply: eq_bigr => j _.
    by rewrite !scalerA dmodel_bdg // off_real.
  rewrite /off_diagonal !block2M !(mulmx0, mul0mx, addr0, add0r) -[- block2 _ _ _ _]scaleN1r !block2Z block2D block2Z.
  rewrite !scaler0 !addr0 !scaler0; congr (block2 _ ('i *: _) _ _).
    by rewrite mulmxDr mulmxN mul_mx_scalar scaleN1r; rewrite [- _ + _]addrC.
  rewrite !scaleN1r daggerZ !daggerD !daggerN daggerZ !daggerM ph dagger_mxconj.
  have -> : dagger (U : 'M[C]_n.+1) = U by [].
  rewrite (_ : ('i : C)^* = - 'i); last by simpc.
  rewrite scaleNr -scalerN; congr (_ *: _); rewrite !opprD !opprK mulmxDl mulNmx mul_scalar_mx opprD opprK.
  rewrite -cU.
  by rewrite addrC [- _ + _]addrC.
split=> H v; last by rewrite gen H scaler0 off_0.
have := H v; rewrite gen -off_0 => /off_inj /eqP; rewrite scaler_eq0 (negbTE i0) => /eqP //.
Qed.

(* particle-hole symmetry of the matrix is (anti)symmetry of the pairing function *)
Lemma ph_symmetric (eta : int) D : eta \in [:: -1; 1] -> good ko default_mom D -> hopfree pone D ->
  is_sym2 (ph_operator F d n eta) (bdg D) <-> forall v, Delta D (- v) = - eta%:~R *: (Delta D v)^T.
Proof.
move=> he gD hf; have gb := good_bdg gD.
have hb : hopfree pone (bdg D).
  by move=> k; rewrite coef_bdg => nz; apply: hf; apply: contraNneq nz => ->; rewrite off_0.
have e2 : (eta%:~R * eta%:~R = 1 :> C) /\ (eta%:~R : C)^* = eta%:~R.
  move: he; rewrite !inE => /orP[] /eqP ->; rewrite ?mulrN1z ?mulr1z ?mulrNN mulr1; split=> //; last by rewrite rmorph1.
  by rewrite rmorphN rmorph1.
case: e2 => e2 ec.
rewrite discrete_values //; set g := Pge _ _ _ _ _.
have pl v : pull g v = - v by rewrite /pull /= invmx1 mulNmx mul1mx.
have ac v : act g (ker (pt (pull g v)) (bdg D)) = off_diagonal (- eta%:~R *: (Delta D (- v))^T).
  rewrite pl ker_bdg // /act /= -[mxconj _]/(cj true _) cj_off [X in _ *m X *m _](sign_off true) /=.
  rewrite /off_diagonal block2_dagger !block2M !dagger0 !(mulmx0, mul0mx, addr0, add0r) dagger1 mul1mx mulmx1.
  have -> : dagger ((eta%:~R)%:M : 'M[C]_n.+1) = (eta%:~R)%:M by rewrite /dagger tr_scalar_mx /mxconj map_scalar_mx /= ec.
  rewrite !scaleN1r !daggerN mul_mx_scalar mul_scalar_mx dagger_mxconj scalerN scalerN !scaleNr daggerN daggerZ ec.
  by congr (block2 _ _ (- (_ *: _)) _); rewrite /dagger trmxK.
split=> H v; last by rewrite ac ker_bdg // -(H (- v)) opprK.
by apply: off_inj; rewrite -ker_bdg // -H ac opprK.
Qed.

(* the real span of the pairing blocks *)
Lemma dict_of_uniq (l : seq (pykey [eqType of key] * mat)) : uniq (dkeys ko l) -> dict_of ko l = l.
Proof.
suff H acc : uniq (dkeys ko (acc ++ l)) -> foldl (fun d kv => dset ko d kv.1 kv.2) acc l = acc ++ l by move/(H [::]).
elim: l acc => [|kv l IH] acc /=; first by rewrite cats0.
move=> u; have -> : dset ko acc kv.1 kv.2 = rcons acc kv.
  have : den ko kv.1 \notin dkeys ko acc.
    move: u; rewrite /dkeys map_cat cat_uniq /= => /and3P[_ h _]; apply: contra h => h.
    by rewrite h.
  elim: (acc) => [|x a IHa] /=; first by case: (kv).
  by rewrite inE negb_or /pk_eq => /andP[/negbTE -> /IHa ->].
by rewrite IH cat_rcons.
Qed.
Lemma pairing_modelE m : wf_model ko m ->
  pairing_model pone default_mom m = Mk [seq (Sym (den ko kv.1), upper_right kv.2 : mat) | kv <- mdata m] [::] default_mom.
Proof.
move=> w; rewrite /pairing_model /construct; congr (Mk _ _ _); rewrite dict_of_uniq.
  by rewrite (eq_filter (a2 := predT)) ?filter_predT -?map_comp //.
rewrite (eq_filter (a2 := predT)) ?filter_predT -?map_comp; last by move=> kv.
by move: w; rewrite /wf_model /wf_dict /dkeys -!map_comp.
Qed.
Lemma pairing_model_coef m k : wf_model ko m -> coef (pairing_model pone default_mom m) k = upper_right (coef m k).
Proof.
move=> w; rewrite pairing_modelE //=; elim: (mdata m) => [|kv l IH] /=; first by rewrite -block2_0 block2_ur.
by rewrite /pk_eq /= IH; case: ifP.
Qed.
Lemma pairing_model_good m : good ko mom m -> good ko default_mom (pairing_model pone default_mom m).
Proof.
case=> w s mo; rewrite pairing_modelE //; split=> //; last by rewrite /all_sym /= all_map; apply/allP.
by move: w; rewrite /wf_model /wf_dict /dkeys /= -map_comp.
Qed.
Lemma upper_right_comb fam c k : (forall m, List.In m fam -> wf_model ko m) ->
  fcoef ko [seq pairing_model pone default_mom m | m <- fam] c k = upper_right (fcoef ko fam c k).
Proof.
elim: fam c => [|m fam IH] c wf; first by rewrite !fcoef_nil -block2_0 block2_ur.
rewrite [map _ _]/= !fcoef_cons IH => [|x hx]; last by apply: wf; right.
rewrite pairing_model_coef; last by apply: wf; left.
have [A1 [B1 [D1 [E1 ->]]]] := block2P (coef m k).
have [A2 [B2 [D2 [E2 ->]]]] := block2P (fcoef ko fam (fun j => c j.+1) k).
by rewrite block2Z block2D !block2_ur.
Qed.
Lemma pairing_span fam D : (forall m, List.In m fam -> good ko mom m /\ forall k, pairing_matrix (coef m k)) ->
  fspan ko [seq pairing_model pone default_mom m | m <- fam] D <-> fspan ko fam (bdg D).
Proof.
move=> H; have wf m : List.In m fam -> wf_model ko m by case/H => -[].
have S c k : pairing_matrix (fcoef ko fam c k).
  elim: fam c {wf} H => [|m fam IH] c H; first by rewrite fcoef_nil /pairing_matrix -block2_0 block2_ur off_0 block2_0.
  rewrite fcoef_cons /pairing_matrix; have [|_ /(_ k) e1] := H m; first by left.
  have e2 : pairing_matrix (fcoef ko fam (fun j => c j.+1) k) by apply: IH => x hx; apply: H; right.
  by rewrite e1 e2 -off_Z -off_D !off_ur.
split=> -[c e]; exists c => k; last by rewrite upper_right_comb // -e coef_bdg off_ur.
by rewrite coef_bdg e upper_right_comb // -S.
Qed.
Lemma fspan_nonempty (fam : seq kmodel) D : fspan ko [seq m <- fam | ~~ nilp (mdata m)] D <-> fspan ko fam D.
Proof.
suff H (f : key -> mat) : (exists c, forall k, f k = fcoef ko [seq m <- fam | ~~ nilp (mdata m)] c k) <->
    (exists c, forall k, f k = fcoef ko fam c k) by apply: (H (fun k => coef D k)).
elim: fam f => [|x fam IH] f //=; case nx : (nilp (mdata x)) => /=.
  have x0 k : coef x k = 0 by case: (mdata x) nx.
  rewrite IH; split=> -[c e].
    by exists (fun j => c j.-1) => k; rewrite fcoef_cons x0 scaler0 add0r e.
  by exists (fun j => c j.+1) => k; rewrite e fcoef_cons x0 scaler0 add0r.
split=> -[c e].
  have [|c' e'] := (IH (fun k => f k - (c 0%N)%:C *: (coef x k : mat))).1.
    by exists (fun j => c j.+1) => k; rewrite e fcoef_cons addrC addKr.
  by exists (fun j => if j is j'.+1 then c' j' else c 0%N) => k; rewrite fcoef_cons /= -e' addrC subrK.
have [|c' e'] := (IH (fun k => f k - (c 0%N)%:C *: (coef x k : mat))).2.
  by exists (fun j => c j.+1) => k; rewrite e fcoef_cons addrC addKr.
by exists (fun j => if j is j'.+1 then c' j' else c 0%N) => k; rewrite fcoef_cons /= -e' addrC subrK.
Qed.

Variable ns : forall N, seq 'rV[F]_N -> seq 'rV[F]_N.
Hypothesis NS : exact_nullspace ns.
Variables (pretty : seq kmodel2 -> res (seq kmodel2)) (prettify : bool).
Hypothesis pretty_span : prettify -> forall fam fam', (forall m, List.In m fam -> good ko mom m) ->
  pretty fam = Ok fam' -> (forall m, List.In m fam' -> good ko mom m) /\ forall m, fspan ko fam' m <-> fspan ko fam m.
Local Notation pairing := (continuum_pairing pone pc mom default_mom ns pretty).

Definition phase_list (symmetries : seq (symmetry F d n)) (phases : option (seq C)) : seq C :=
  if phases is Some p then p else nseq (size symmetries) 1.

Lemma pairing_ok symmetries tp ap nmom phases eta result : pairing symmetries tp ap nmom phases eta prettify = Ok result ->
  [/\ eta \in [:: -1; 1], (size symmetries <= size (phase_list symmetries phases))%N & exists ext famm,
    [/\ mapM (fun sp => extend sp.1 sp.2) (zip symmetries (phase_list symmetries phases)) = Ok ext,
      all_degrees pone mom (sym_apply pone pc (Mom := Mom) (n := n2)) (@is_discrete F d n2) (@sym_has_U F d n2)
        ns pretty (pairing_basis F n) (rcons ext (ph_operator F d n eta)) tp ap (minn d nmom) prettify = Ok famm &
      result = [seq m <- [seq pairing_model pone default_mom m | m <- famm] | ~~ nilp (mdata m)]]].
Proof.
rewrite /continuum_pairing -/(phase_list symmetries phases); case: ifP => // /negbFE he.
case es : {1}symmetries => [//|s0 l]; case: ifP => // _; case em : (mapM _ _) => [ext|] //=.
case: continuum_variables => [vars|] //=; case: ifP => // /negbT; rewrite -leqNgt => sz.
by case ed : all_degrees => [famm|] //= [<-]; split=> //; exists ext, famm.
Qed.

(* C76: the real span of the result consists of all polynomial pairing functions with the declared antisymmetry and the
   declared symmetries *)
Theorem C76_pairing symmetries tp ap nmom phases eta result D : (0 < d)%N ->
  (forall s phase, List.In (s, phase) (zip symmetries (phase_list symmetries phases)) -> valid_generator s phase) ->
  pairing symmetries tp ap nmom phases eta prettify = Ok result -> good ko default_mom D ->
  fspan ko result D <-> [/\ polynomial pone (degrees tp) ap D,
    forall v, Delta D (- v) = - eta%:~R *: (Delta D v)^T &
    forall s phase, List.In (s, phase) (zip symmetries (phase_list symmetries phases)) -> pairing_symmetric s phase D].
Proof.
move=> d0 vg /pairing_ok [he _ [ext [famm [em ed ->]]]] gD; have gb := good_bdg gD.
have [gf sf] := degrees_span pcK pc1 (pairing_basisP F n) NS pretty_span d0 ed.
rewrite fspan_nonempty pairing_span; last first.
  move=> m hm; split; first exact: gf.
  by have [_ H _] := (sf m (gf m hm)).1 (fspan_member ko hm).
rewrite sf //.
have pol : polynomial pone (degrees tp) ap (bdg D) <-> polynomial pone (degrees tp) ap D.
  split=> H k nz; apply: H; first by rewrite coef_bdg; apply: contra nz => /eqP; rewrite -off_0 => /off_inj ->.
  by apply: contraNneq nz => z; rewrite coef_bdg z off_0.
have co : coefs_in pone (@pairing_matrix F n) (bdg D).
  by move=> k; rewrite coef_bdg /pairing_matrix off_ur.
have hf : polynomial pone (degrees tp) ap D -> hopfree pone D by move=> H k /H [].
split=> [[/pol pD _ sD]|[pD aD sD]]; have hD := hf pD.
  split=> //; first by apply/(ph_symmetric he) => //; apply: sD; apply/In_rcons; right.
  move=> s phase hs; have [s2 h2 e2] := mapM_In' em hs.
  by apply/(extend_symmetric e2 (vg _ _ hs) gD hD); apply: sD; apply/In_rcons; left.
split=> //; first exact/pol.
move=> s2 /In_rcons [h2|->]; last by apply/(ph_symmetric he).
have [[s phase] hs /= e2] := mapM_In em h2.
by apply/(extend_symmetric e2 (vg _ _ hs) gD hD); apply: sD.
Qed.

(* every member of the result is itself such a pairing function *)
Corollary C76_member symmetries tp ap nmom phases eta result D : (0 < d)%N ->
  (forall s phase, List.In (s, phase) (zip symmetries (phase_list symmetries phases)) -> valid_generator s phase) ->
  pairing symmetries tp ap nmom phases eta prettify = Ok result -> List.In D result ->
  forall v, Delta D (- v) = - eta%:~R *: (Delta D v)^T.
Proof.
move=> d0 vg E hD.
have gD : good ko default_mom D.
  have [_ _ [ext [famm [_ ed e]]]] := pairing_ok E.
  have [gf _] := degrees_span pcK pc1 (pairing_basisP F n) NS pretty_span d0 ed.
  have : List.In D [seq pairing_model pone default_mom m | m <- famm].
    by move: hD; rewrite e; elim: (map _ _) => //= x l IH; case: ifP => _ /= => [[->|/IH]|/IH]; [left|right|right].
  by case/In_map_iff => m hm ->; apply: pairing_model_good; apply: gf.
by have [] := (C76_pairing d0 vg E gD).1 (fspan_member ko hD).
Qed.
(* any other square of the particle-hole operator is rejected *)
Lemma C76_rejects symmetries tp ap nmom phases eta : eta \notin [:: -1; 1] ->
  pairing symmetries tp ap nmom phases eta prettify = Err ValueError.
Proof. by rewrite /continuum_pairing => ->. Qed.

(* C75: the momenta of the result are never the ones that were asked for, but the default ones *)
Theorem C75_momenta symmetries tp ap nmom phases eta result D :
  pairing symmetries tp ap nmom phases eta prettify = Ok result -> List.In D result -> mmom D = default_mom.
Proof.
move=> E; have [_ _ [ext [famm [_ _ ->]]]] := pairing_ok E.
elim: famm => //= m l IH; case: ifP => _; last exact: IH.
by case=> [<-|/IH].
Qed.

(* ---- acceptance ---- *)
Definition diag_part (X : 'M[C]_n2.+1) : 'M[C]_n2.+1 :=
  block2 (ulsubmx (X : 'M[C]_(n.+1 + n.+1))) 0 0 (drsubmx (X : 'M[C]_(n.+1 + n.+1))).
Lemma diag_partE (A B D E : 'M[C]_n.+1) : diag_part (block2 A B D E) = block2 A 0 0 E.
Proof.
by rewrite /diag_part; congr (block2 _ _ _ _); [exact: (@block_mxKul _ n.+1 n.+1 n.+1 n.+1)|exact: (@block_mxKdr _ n.+1 n.+1 n.+1 n.+1)].
Qed.
Lemma diag_partD X Y : diag_part (X + Y) = diag_part X + diag_part Y.
Proof.
have [A1 [B1 [D1 [E1 ->]]]] := block2P X; have [A2 [B2 [D2 [E2 ->]]]] := block2P Y.
by rewrite block2D !diag_partE block2D !addr0.
Qed.
Lemma diag_partZ (z : C) X : diag_part (z *: X) = z *: diag_part X.
Proof. by have [A1 [B1 [D1 [E1 ->]]]] := block2P X; rewrite block2Z !diag_partE block2Z !scaler0. Qed.
Lemma diag_part0 : diag_part 0 = 0. Proof. by rewrite -block2_0 diag_partE. Qed.
Lemma pairing_matrixP X : pairing_matrix X <-> dagger X = X /\ diag_part X = 0.
Proof.
split=> [->|[]].
  by rewrite /off_diagonal block2_dagger !dagger0 daggerK diag_partE block2_0.
have [A [B [D [E ->]]]] := block2P X; rewrite /pairing_matrix block2_ur block2_dagger diag_partE -block2_0.
by move=> /block2_inj [_ _ <- _] /block2_inj [-> _ _ ->].
Qed.
(* matrices that keep or exchange electrons and holes *)
Definition shaped (U : 'M[C]_n2.+1) : Prop := exists A B, U = block2 A 0 0 B \/ U = block2 0 A B 0.
Lemma shaped_sandwich U X : shaped U -> diag_part X = 0 -> diag_part (U *m X *m dagger U) = 0.
Proof.
case=> A [B [->|->]]; have [A1 [B1 [D1 [E1 ->]]]] := block2P X; rewrite diag_partE -block2_0 => /block2_inj [-> _ _ ->];
  by rewrite block2_dagger !block2M !dagger0 !(mulmx0, mul0mx, addr0, add0r) diag_partE.
Qed.
Lemma diag_cj c X : diag_part X = 0 -> diag_part (cj c X) = 0.
Proof.
case: c => //=; have [A1 [B1 [D1 [E1 ->]]]] := block2P X; rewrite diag_partE -block2_0 => /block2_inj [-> _ _ ->].
by rewrite block2_conj diag_partE mxconj0.
Qed.
Lemma shaped_inv (g : pge F d n2) U : pU g = Some U -> shaped U -> exists2 V, pU (pge_inv g) = Some V & shaped V.
Proof.
move=> e [A [B s]]; exists (if pconj g then U^T else dagger U); first by rewrite /= e.
case: (pconj g); case: s => ->; rewrite ?block2_tr ?block2_dagger ?trmx0 ?dagger0; do 2 eexists;
  by [left|right].
Qed.
Lemma diag_coef m k : coef (mmap (W := mat2) diag_part m) k = diag_part (coef m k).
Proof. by rewrite /mmap /=; elim: (mdata m) => [|kv l IH] /=; rewrite ?diag_part0 //; case: ifP. Qed.
Lemma diag_values m : good ko mom m -> (forall k, diag_part (coef m k) = 0) -> forall ev, diag_part (meval ko ev m) = 0.
Proof.
move=> gm H ev; rewrite -(eval_mmap ko (W := mat2) m ev diag_partD diag_partZ).
have gz : good ko mom (zeros_like mat2 m) by case: gm.
have gd : good ko mom (mmap (W := mat2) diag_part m).
  by case: gm => w s mo; split; rewrite ?mmap_wf ?mmap_sym.
rewrite (@eval_ext _ _ _ ev gd gz); first by rewrite /ModelCore.meval big_nil.
by move=> k; rewrite diag_coef H.
Qed.
Lemma keeps_pairing (g : pge F d n2) U m m1 : pU g = Some U -> shaped U -> good ko mom m -> hopfree pone m ->
  (forall k, pairing_matrix (coef m k)) -> pge_apply pone pc g m = Ok m1 -> forall k, pairing_matrix (coef m1 k).
Proof.
move=> eU sU gm hf H E k; have [w s mo] := gm.
have herm : hermitian pone m by move=> k'; have /pairing_matrixP [] := H k'.
apply/pairing_matrixP; split; first exact: (keeps_hermitian pmul pcK pc1 gm hf herm E).
have [tot1 _] := pge_apply_lop pone pcK mom g.
have gm1 : good ko mom m1 by have [m1' [E1' ?]] := tot1 m gm; move: E1'; rewrite E => -[->].
have [hf1 _] := graded_pge pcK pc1 gm hf E.
have [x' [E' w' s' mo' ev]] := C02_apply_value pone pmul pcK g s.
move: E'; rewrite E => -[e1]; rewrite -{}e1 in ev.
have gd : good ko mom (mmap (W := mat2) diag_part m1).
  by case: gm1 => w1 s1 mo1; split; rewrite ?mmap_wf ?mmap_sym.
have hd : hopfree pone (mmap (W := mat2) diag_part m1).
  move=> k'; rewrite diag_coef => nz; apply: hf1.
  by apply: contra nz => /eqP ->; rewrite diag_part0.
rewrite -diag_coef.
apply: (values_determine_coefficients (pmul := pmul) (pc := pc) gd hd) => v.
rewrite /KeysProofs.ker (eval_mmap ko (W := mat2) _ _ diag_partD diag_partZ) -/(ker (pt v) m1) (ev (pt v)) /act eU /sandwich.
apply: shaped_sandwich => //; rewrite diag_partZ diag_cj ?scaler0 //.
by apply: diag_values => // k'; have /pairing_matrixP [] := H k'.
Qed.

(* a valid symmetry of the normal Hamiltonian, with a phase of modulus one if it is discrete *)
Definition valid_symmetry (s : symmetry F d n) (phase : C) : Prop :=
  sym_has_U s /\ if s is Discrete g then pge_wf g /\ phase * phase^* = 1 else True.
Lemma extend_ok s phase : valid_symmetry s phase -> exists s2, [/\ extend s phase = Ok s2, sym_has_U s2 &
  forall g, s2 = Discrete g -> pge_wf g /\ exists2 U, pU g = Some U & shaped U].
Proof.
case: s => [g|R [U|]] [] //=; last by move=> _ _; eexists.
rewrite /pge_wf; case eU: (pU g) => [U|] // _ [[hR [h1 h2]] ph].
eexists; split; [by []|by []|move=> g2 [<-] /=]; split; last by eexists; [by []|exists U, (phase *: mxconj U); left].
have c1 : mxconj U *m U^T = 1%:M.
  by have := congr1 (@mxconj F _ _) h1; rewrite mxconjM /dagger mxconjK mxconj1.
have c2 : U^T *m mxconj U = 1%:M.
  by have := congr1 (@mxconj F _ _) h2; rewrite mxconjM /dagger mxconjK mxconj1.
split=> //; rewrite /unitarymx block2_dagger !block2M !dagger0 !(mulmx0, mul0mx, addr0, add0r) h1 h2.
rewrite daggerZ dagger_mxconj -!scalemxAl -!scalemxAr !scalerA c1 c2.
by rewrite ph [phase^* * _]mulrC ph !scale1r block2_1.
Qed.
Lemma ph_wf (eta : int) : eta \in [:: -1; 1] -> exists2 g, ph_operator F d n eta = Discrete g &
  pge_wf g /\ exists2 U, pU g = Some U & shaped U.
Proof.
move=> he; eexists; first by []; split; last by eexists; [by []|do 2 eexists; right].
split; first exact: unitmx1.
have ee : (eta%:~R : C) * eta%:~R = 1 /\ (eta%:~R : C)^* = eta%:~R.
  move: he; rewrite !inE => /orP[] /eqP ->; rewrite ?mulrN1z ?mulr1z ?mulrNN mulr1; split=> //; last by rewrite rmorph1.
  by rewrite rmorphN rmorph1.
case: ee => ee ec; rewrite /= /unitarymx block2_dagger !block2M !dagger0 !(mulmx0, mul0mx, addr0, add0r) dagger1 mulmx1.
have -> : dagger ((eta%:~R)%:M : 'M[C]_n.+1) = (eta%:~R)%:M by rewrite /dagger tr_scalar_mx /mxconj map_scalar_mx /= ec.
by rewrite -scalar_mxM ee block2_1.
Qed.
Theorem C76_accepts symmetries tp nmom phases eta : (0 < d)%N -> (d <= nmom)%N -> (0 < size symmetries)%N ->
  (size symmetries <= size (phase_list symmetries phases))%N ->
  (forall s phase, List.In (s, phase) (zip symmetries (phase_list symmetries phases)) -> valid_symmetry s phase) ->
  eta \in [:: -1; 1] -> prettify = false ->
  exists result, pairing symmetries tp None nmom phases eta prettify = Ok result.
Proof.
move=> d0 dn s0 sz vs he pf; rewrite /continuum_pairing he -/(phase_list symmetries phases) /=.
have [|ext em] := mapM_total (f := fun sp => @extend F d n sp.1 sp.2) (s := zip symmetries (phase_list symmetries phases)).
  by move=> [s phase] hs; have [s2 [e _ _]] := extend_ok (vs _ _ hs); exists s2.
have EU s2 : List.In s2 ext -> sym_has_U s2 /\ forall g, s2 = Discrete g -> pge_wf g /\ exists2 U, pU g = Some U & shaped U.
  by move/(mapM_In em) => [[s phase] hs /= e2]; have [s2' [e3 hU hw]] := extend_ok (vs _ _ hs); move: e3; rewrite e2 => -[->].
have [g eg wg] := ph_wf he.
have AU s2 : List.In s2 (rcons ext (ph_operator F d n eta)) ->
    sym_has_U s2 /\ forall g, s2 = Discrete g -> pge_wf g /\ exists2 U, pU g = Some U & shaped U.
  by move=> /In_rcons [/EU //|->]; split=> // g'; rewrite eg => -[<-].
case es: {1}symmetries => [|s1 l]; first by rewrite es in s0.
have -> : sym_has_U s1.
  move: sz vs; rewrite es; case: (phase_list _ _) => [//|p ps] _ vs.
  by have [|] := vs s1 p; first by left.
rewrite em /= (minn_idPl dn) ltnNge sz /=.
have [|vars ->] := (C34_rejects F d pone 0 None d).2; first by split.
have [||||result ->] := @degrees_accepts F d n2 P pone pmul pc pcK pc1 Mom mom (pairing_basis F n) (@pairing_matrix F n) (pairing_basisP F n)
  ns pretty prettify (rcons ext (ph_operator F d n eta)) tp d d0 (leqnn d) _ _ _ _ pf; last by eexists.
- by rewrite size_rcons.
- by move=> s /AU [].
- by move=> g' /AU [_ /(_ _ erefl) []].
move=> g' m m1 /AU [_ /(_ _ erefl) [_ [U eU sU]]] gm hf hm E.
have [V eV sV] := shaped_inv eU sU.
exact: keeps_pairing eV sV gm hf hm E.
Qed.
End Pairing.

(* the constant pairing 1 of a singlet: the result is not empty, and its momenta are not those requested *)
Section Constant.
Variables (F : rcfType) (d n : nat) (P : eqType) (pone : P) (pmul : P -> P -> P) (pc : P -> P).
Hypothesis pcK : involutive pc.
Hypothesis pc1 : pc pone = pone.
Variables (Mom : eqType) (mom default_mom : Mom).
Local Notation C := F[i].
Local Notation key := (key F d P).
Local Notation mat := [lmodType C of 'M[C]_n.+1].
Local Notation kmodel := (model [eqType of key] Mom mat).
Let ko : [eqType of key] := kone F d pone.
Definition trivial_symmetry : symmetry F d n := Discrete (Pge 1%:M false false (Some 1%:M) false).
Definition constant_pairing : kmodel := Mk [:: (Sym ko, 1%:M : mat)] [::] default_mom.
Local Notation pairing0 tp nmom := (continuum_pairing pone pc mom default_mom (fun N => @ker_rows F N) (fun fam => Ok fam)
  [:: trivial_symmetry] (inl tp) None nmom None (-1) false).
Lemma constant_Delta v : Delta pone pmul pc constant_pairing v = 1%:M.
Proof.
rewrite /Delta /KeysProofs.ker /ModelCore.meval /= big_seq1 kev_point /pev big1 => [|i _]; first by rewrite scale1r.
by rewrite /kpow /= ffunE expr0.
Qed.
Lemma constant_found tp nmom result : (0 < d)%N -> pairing0 tp nmom = Ok result -> fspan ko result constant_pairing.
Proof.
move=> d0 E.
apply/(@C76_pairing F d n P pone pmul pc pcK pc1 Mom mom default_mom (fun N => @ker_rows F N) (@ker_rows_exact F) (fun fam => Ok fam) false
  (fun f => ltac:(discriminate f)) [:: trivial_symmetry] (inl tp) None nmom None (-1) result constant_pairing d0 _ E) => //.
  by move=> s phase [[<- _]|//].
split=> [k|v|s phase [[<- <-]|//] v].
- rewrite /= /pk_eq /=; case: ifP => [/eqP -> _|_]; last by rewrite eqxx.
  by split=> //; rewrite big1 // => i _; rewrite /kpow /= ffunE.
- by rewrite !constant_Delta mulrN1z opprK scale1r trmx1.
by rewrite /= !constant_Delta trmx1 !mulmx1 mul1r oppr0; apply: scale1r.
Qed.
Theorem C75_refuted tp nmom : (0 < d)%N -> (d <= nmom)%N -> mom != default_mom ->
  exists result D, [/\ pairing0 tp nmom = Ok result, List.In D result & mmom D != mom].
Proof.
move=> d0 dn ne.
have [|||result E] := @C76_accepts F d n P pone pmul pc pcK pc1 Mom mom default_mom (fun N => @ker_rows F N) (fun fam => Ok fam) false
  [:: trivial_symmetry] (inl tp) nmom None (-1) d0 dn isT _ _ _ erefl; [by []| |by []|].
  move=> s phase [[<- <-]|//]; split=> //; split; last by rewrite mul1r rmorph1.
  by split; rewrite /= ?unitmx1 //; split; rewrite dagger1 mulmx1.
have [c e] := constant_found d0 E; exists result.
case: result E e => [|D l] E e; last first.
  exists D; split=> //; first by left.
  by rewrite (C75_momenta E (or_introl erefl)) eq_sym.
have := e ko; rewrite fcoef_nil /= /pk_eq /= eqxx => /eqP; by rewrite oner_eq0.
Qed.
End Constant.

Print Assumptions C76_pairing.
Print Assumptions C76_accepts.
Print Assumptions C76_member.
Print Assumptions C75_momenta.
Print Assumptions C75_refuted.
