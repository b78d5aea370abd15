(* C39: make_basis_pretty. *)
From mathcomp Require Import all_ssreflect all_algebra.
From mathcomp Require Import complex.
From Verif Require Import Prelude ModelCore ModelProofs LinSpan NullSpec Tolerance PropTol Rref PropRref Complement Family FamilyProofs PropFamily FamilyTools PropFamilyTools.

Set Implicit Arguments.
Unset Strict Implicit.
Unset Printing Implicit Defensive.
Import Order.TTheory GRing.Theory Num.Theory.
Local Open Scope ring_scope.
Local Open Scope complex_scope.

(* _, S = rref(..., return_S=True, rtol=...): the unpacking fails when rref returns
   one matrix.  (With exactly two rows it succeeds and the loop over S fails.) *)
Definition rref_S (F : rcfType) (np_rtol np_atol rtol : F) m n (A : 'M[F]_(m, n)) : res 'M[F]_m :=
  do r <- rref (fun x : F => `|x|) np_rtol np_atol A rtol true;
  if r is RedS _ trafo then Ok trafo else Err ValueError.

Section Pretty.
Variables (F : rcfType) (n1 n2 : nat) (K : eqType) (kone : K) (Mom : eqType) (mom : Mom).
Local Notation C := F[i].
Local Notation V := [lmodType C of 'M[C]_(n1, n2)].
Local Notation model := (model K Mom V).
Local Notation coef m k := (dget kone (mdata m) (Sym k)).
Local Notation fcoef := (fcoef kone).
Local Notation fspan := (fspan kone).
Local Notation findep := (findep kone).
Local Notation good := (good kone mom).
Local Notation id_ := [rmorphism of idfun].
Implicit Types (family fam : seq model) (m : model) (c : nat -> F).

Lemma madd_nil (a b r : model) : madd kone a b = Ok r -> nilp (mdata r) -> nilp (mdata a) /\ nilp (mdata b).
Proof.
rewrite /madd; case nb: (nilp (mdata b)); first by case=> <-.
case na: (nilp (mdata a)); first by case=> <- /=; rewrite nb.
case: (mmom a != mmom b) => //= -[<-] /= /nilP e; exfalso.
case Ea: (mdata a) na => [//|kv a'] _.
by have := dkeys_add kone (mdata a) (mdata b) (den kone kv.1); rewrite e Ea /= inE eqxx.
Qed.
Lemma foldl_err (l : seq model) e : foldl (fun acc m' => do a <- acc; madd kone a m') (Err e) l = Err e.
Proof. by elim: l. Qed.
Lemma psum_nil (l : seq model) r : psum kone l = Ok r -> nilp (mdata r) -> forall m, List.In m l -> nilp (mdata m).
Proof.
case: l => // m l; rewrite /psum => E nr.
have {E} : nilp (mdata (mcopy m)) /\ forall x, List.In x l -> nilp (mdata x).
  elim: l (mcopy m) E => [|x l IH] a /=; first by case=> ->.
  case e: (madd kone a x) => [b|]; last by rewrite foldl_err.
  move=> /IH [nb Hl]; have [na nx] := madd_nil e nb.
  by split=> // y [<-|/Hl].
by case=> h1 h2 x [<-|/h2].
Qed.
Lemma combine_nil fam (cs : seq C) r : size cs = size fam -> combine kone fam cs = Ok r -> nilp (mdata r) ->
  forall m, List.In m fam -> nilp (mdata m).
Proof.
move=> sz /psum_nil H /H {}H m hm.
have [j lj Ej] := In_nth m hm.
have : List.In (mscale (nth 0 cs j) m) [seq mscale cm.1 cm.2 | cm <- zip cs fam].
  apply/In_map_iff; exists (nth 0 cs j, m) => //.
  by rewrite [in X in List.In X _]Ej -nth_zip //; apply: nth_In; rewrite size_zip sz minnn.
by move=> /H; rewrite /nilp size_map.
Qed.

(* C39: before rounding, the result has the size and the span of the family *)
Theorem C39_make_basis_pretty family (np_rtol np_atol rtol : F) rnd res :
  0 < rtol -> 0 <= np_atol -> (forall m, List.In m family -> good m) -> (0 < size family)%N ->
  make_basis_pretty kone (fun m0 n0 : nat => @rref_S F np_rtol np_atol rtol m0 n0) rnd family = Ok res ->
  exists terms, [/\ res = rnd terms, size terms = size family,
    forall m, fspan terms m <-> fspan family m & findep family -> findep terms].
Proof.
move=> r0 a0 gf n0; rewrite /make_basis_pretty.
have -> : nilp family = false by apply/negbTE; rewrite /nilp -lt0n.
rewrite /family_to_vectors -/(family_to_vectors kone family (Some (family_keys kone family))).
have cv := covered_keys kone family.
rewrite f2v_total //=; last by left.
set A := (\matrix_(_, _) _).
rewrite /rref_S; case Ez: (np_allclose (fun x : F => `|x|) np_rtol np_atol A 0).
  by rewrite /rref Ez.
have [red [S' [ps [-> _ US _ _]]]] := C29_rref (is_norm_real F) r0 (negbT Ez) a0.
rewrite [bind (bind _ _) _]/=.
case E: (combine_all (family := family) kone [seq row i S' | i <- enum 'I_(size family)]) => [terms|] //= [<-].
have [sz gr fr sr] := combine_all_props n0 gf E.
have nk : exists2 m, List.In m family & ~~ nilp (mdata m).
  have h : has (fun m => ~~ nilp (mdata m)) family.
    apply: contraFT Ez; rewrite -all_predC => /allIn H.
    have k0 : family_keys kone family = [::].
      rewrite /family_keys (_ : flatten _ = [::]) //.
      have : forall m, List.In m family -> nilp (mdata m) by move=> m /H; rewrite /= negbK.
      by elim: (family) => //= m l IH Hl; rewrite IH ?(nilP (Hl m (or_introl erefl))) // => m' h'; apply: Hl; right.
    have L0 : size (head [::] [seq member_vector kone (family_keys kone family) m | m <- family]) = 0%N.
      by rewrite k0; case: (family) => //.
    apply/forallP => i; apply/forallP => -[j lj]; exfalso.
    by move: lj; rewrite L0.
  by elim: (family) h => //= m l IH /orP [h|/IH [m' h1 h2]]; [exists m; [left|]|exists m'; [right|]].
have ft : [seq t <- terms | ~~ nilp (mdata t)] = terms.
  apply/all_filterP/allIn => t ht; have [v _ ev] := mapM_In E ht; have [m hm nm] := nk.
  by apply: contra nm => nt; apply: (combine_nil (size_rowseq v) ev nt).
have rE (v : 'rV[F]_(size family)) : v *m S' = comb id_ [seq row i S' | i <- enum 'I_(size family)] (rowf v).
  rewrite mulmx_sum_row /comb size_map size_enum_ord; apply: eq_bigr => j _.
  by rewrite rowfE (nth_map j) ?size_enum_ord // nth_ord_enum.
exists terms; rewrite ft; split=> //; first by rewrite sz size_map size_enum_ord.
  move=> m; rewrite sr; split=> [[v _ Ev]|[c Ec]]; first by exists (rowf v).
  exists (\row_(j < size family) c j); last by move=> k; rewrite Ec fcoef_row.
  by exists (rowf (\row_(j < size family) c j *m invmx S')); rewrite -rE mulmxKV.
move=> fi c c0 j lj.
have szt : size terms = size family by rewrite sz size_map size_enum_ord.
have z : comb id_ [seq row i S' | i <- enum 'I_(size family)] c = 0.
  by apply: fcoef_vanish fi _ => k; rewrite -fr.
have zE : comb id_ [seq row i S' | i <- enum 'I_(size family)] c = (\row_(j < size family) c j) *m S'.
  rewrite rE; apply: eq_comb => i; rewrite size_map size_enum_ord => li.
  by rewrite (_ : i = Ordinal li :> nat) // rowfE mxE.
rewrite szt in lj.
have /rowP /(_ (Ordinal lj)) : \row_(j < size family) c j = 0.
  by rewrite -(mulmxK US (\row_(j < size family) c j)) -zE z mul0mx.
by rewrite !mxE.
Qed.

Theorem C39_accepts family (np_rtol np_atol rtol : F) rnd m (k : K) (i : 'I_n1) (j : 'I_n2) :
  0 < rtol -> 0 <= np_atol -> (forall m, List.In m family -> good m) -> List.In m family ->
  np_atol < `|complex.Re ((coef m k : 'M[C]_(n1, n2)) i j)| ->
  exists res, make_basis_pretty kone (fun m0 n0 : nat => @rref_S F np_rtol np_atol rtol m0 n0) rnd family = Ok res.
Proof.
move=> r0 a0 gf hm big; rewrite /make_basis_pretty.
have n0 : (0 < size family)%N by case: (family) hm.
have -> : nilp family = false by apply/negbTE; rewrite /nilp -lt0n.
rewrite /family_to_vectors -/(family_to_vectors kone family (Some (family_keys kone family))).
have cv := covered_keys kone family.
rewrite f2v_total //=; last by left.
set A := (\matrix_(_, _) _).
have kk : k \in family_keys kone family.
  apply: contraLR big => nk; rewrite -leNgt.
  have -> : (coef m k : 'M[C]_(n1, n2)) = 0 by apply: dget_notin; apply: contra nk => h; move/allIn: cv => /(_ m hm) /allP; apply.
  by rewrite mxE normr0.
have Ez : ~~ np_allclose (fun x : F => `|x|) np_rtol np_atol A 0.
  have [l ll El] := In_nth m hm; set x := (k, false, i, j).
  have xs : x \in slots n1 n2 (family_keys kone family) by apply: slotsP.
  have L : size (head [::] [seq member_vector kone (family_keys kone family) m | m <- family]) = size (slots n1 n2 (family_keys kone family)).
    by case: (family) n0 => // m' l' _ /=; rewrite member_vectorE size_map.
  have lx : (index x (slots n1 n2 (family_keys kone family)) < size (head [::] [seq member_vector kone (family_keys kone family) m | m <- family]))%N.
    by rewrite L index_mem.
  apply/negP => /forallP /(_ (Ordinal ll)) /forallP /(_ (Ordinal lx)).
  rewrite /np_isclose !mxE /= normr0 mulr0 addr0 subr0 (nth_map m) // -El member_vectorE (nth_map x) ?index_mem // nth_index //.
  by rewrite /entry /= leNgt big.
have [red [S' [ps [E _ _ _ _]]]] := C29_rref (is_norm_real F) r0 Ez a0.
rewrite /rref_S E [bind (bind _ _) _]/=.
have [terms ->] := combine_all_ok [seq row i S' | i <- enum 'I_(size family)] n0 gf.
by eexists.
Qed.
End Pretty.

(* np.around: [r] rounds a real number to a decimal fraction *)
Definition cround (F : rcfType) (r : F -> F) (z : F[i]) : F[i] := r (complex.Re z) +i* r (complex.Im z).
(* round_family, hamiltonian_generator.py:240-257 with Model.around, model.py:585-592 *)
Definition round_family (F : rcfType) n1 n2 (K Mom : eqType) (r : F -> F) (zero : 'M[F[i]]_(n1, n2) -> bool)
    (family : seq (model K Mom [lmodType F[i] of 'M[F[i]]_(n1, n2)])) :=
  [seq Mk (around (fun v : 'M[F[i]]_(n1, n2) => map_mx (cround r) v) zero (mdata m)) (mkeep m) (mmom m) | m <- family].

Lemma sqrt2_irrational (F : rcfType) (q : rat) : ratr q <> Num.sqrt 2%:R :> F.
Proof.
move=> /(congr1 (fun x => x ^+ 2)); rewrite sqr_sqrtr ?ler0n // -(rmorphX [rmorphism of @ratr F]) -[2%:R](rmorph_nat [rmorphism of @ratr F] 2).
move/(fmorph_inj [rmorphism of @ratr F]) => E.
have {E} : (numq q) ^+ 2 = 2 * (denq q) ^+ 2 :> int.
  apply/eqP; rewrite -(eqr_int [numDomainType of rat]) !expr2 !intrM -[2%:~R]/(2%:R) -E expr2.
  have := divq_num_den q; have : (denq q)%:~R != 0 :> rat by rewrite intr_eq0 denq_neq0.
  by move=> d0 {3 4}<-; rewrite mulrACA !divfK.
move/(congr1 absz); rewrite abszM !abszX => /(congr1 (logn 2)) /=.
have d0 : (0 < `|denq q|)%N by rewrite absz_gt0 denq_neq0.
rewrite (@lognM 2 2) ?expn_gt0 ?d0 // !lognX (_ : logn 2 2 = 1%N) // => /(congr1 odd).
by rewrite oddD !oddM.
Qed.

(* C39 fails after rounding: whatever decimal rounding is used, the result for the
   one-member family 1 + sqrt(2) k has another span *)
Theorem C39_rounded_refuted (F : rcfType) (np_rtol np_atol rtol : F) (r : F -> F) zero :
  0 < rtol -> 0 <= np_atol -> (forall x, exists q : rat, r x = ratr q) ->
  let m : model nat_eqType unit_eqType [lmodType F[i] of 'M[F[i]]_1] :=
    Mk [:: (Sym 0%N, 1%:M); (Sym 1%N, (Num.sqrt 2%:R)%:C%:M)] [::] tt in
  forall res, make_basis_pretty 0%N (fun m0 n0 : nat => @rref_S F np_rtol np_atol rtol m0 n0) (round_family r zero) [:: m] = Ok res ->
  ~ fspan 0%N res m.
Proof.
move=> r0 a0 rat_r m res E [c Ec].
have gm x : List.In x [:: m] -> good 0%N tt x by case=> [<-|//].
have C39 := C39_make_basis_pretty r0 a0 gm _ E; have [|terms [Er sz _ _]] := C39; first by [].
case: terms Er sz => [//|t [|//]] Er _; subst res.
have H k : exists q : rat, complex.Re (dget 0%N (around (fun v : 'M[F[i]]_1 => map_mx (cround r) v) zero (mdata t)) (Sym k) 0 0) = ratr q.
  rewrite /around; elim: (mdata t) => [|[k' v] d IH] /=; first by exists 0; rewrite mxE rmorph0.
  case: (zero _) => //=; case: (pk_eq _ _ _) => //; rewrite mxE /=; exact: rat_r.
have coefm k : complex.Re (dget 0%N (mdata m) (Sym k) 0 0) = c 0%N * complex.Re (dget 0%N (around (fun v : 'M[F[i]]_1 => map_mx (cround r) v) zero (mdata t)) (Sym k) 0 0).
  by rewrite Ec /FamilyProofs.fcoef /= big_ord_recl big_ord0 addr0 mxE; case: ((dget _ _ _ : 'M_1) _ _) => a b /=; rewrite mul0r subr0.
have [q0 E0] := H 0%N; have [q1 E1] := H 1%N.
have := coefm 0%N; have := coefm 1%N; rewrite E0 E1 /= !mxE eqxx /= => e1 e0.
have q00 : ratr q0 != 0 :> F by apply/eqP => e; have := e0; rewrite e mulr0 => /eqP; rewrite oner_eq0.
apply: (@sqrt2_irrational F (q1 / q0)); rewrite e1 rmorphM fmorphV.
by apply: (mulIf q00); rewrite mulfVK // mulrAC -e0 mul1r.
Qed.

(* the function accepts that family *)
Example C39_accepts_sqrt2 (F : rcfType) (r : F -> F) zero (t : F) : 0 <= t < 1 ->
  let m : model nat_eqType unit_eqType [lmodType F[i] of 'M[F[i]]_1] :=
    Mk [:: (Sym 0%N, 1%:M); (Sym 1%N, (Num.sqrt 2%:R)%:C%:M)] [::] tt in
  exists res, make_basis_pretty 0%N (fun m0 n0 : nat => @rref_S F t t (1/2%:R) m0 n0) (round_family r zero) [:: m] = Ok res.
Proof.
move=> /andP [t0 t1] m.
have gm x : List.In x [:: m] -> good 0%N tt x by case=> [<-|//].
have H := C39_accepts t (round_family r zero) _ t0 gm (m := m) (k := 0%N) (i := 0) (j := 0) (rtol := 1/2%:R).
apply: H; [by apply: divr_gt0; rewrite ?ltr01 ?ltr0n|by left|].
by rewrite /= mxE eqxx /= normr1.
Qed.
Print Assumptions C39_make_basis_pretty.
Print Assumptions C39_rounded_refuted.
