(* C20, C21, C53, C54, C55, C79: tolerances. *)
From mathcomp Require Import all_ssreflect all_algebra.
From mathcomp Require Import complex zify.
From Verif Require Import Prelude RealLemmas ModelCore ModelProofs Tolerance.

Set Implicit Arguments.
Unset Strict Implicit.
Unset Printing Implicit Defensive.
Import Order.Theory GRing.Theory Num.Theory.
Local Open Scope ring_scope.

(* ---- the two norms used by the library ---- *)
Lemma is_norm_real (F : realFieldType) : is_norm (fun x : F => `|x|).
Proof.
by split; [exact: normr_ge0 | exact: normr0 | exact: normr0_eq0 | exact: normrN |
           exact: ler_norm_add | exact: normrM].
Qed.

Definition cabs (F : rcfType) (z : F[i]) : F := Num.sqrt (complex.Re z ^+ 2 + complex.Im z ^+ 2).
Lemma cabsE (F : rcfType) (z : F[i]) : `|z| = (cabs z)%:C%C.
Proof. exact: normc_def. Qed.

Lemma is_norm_complex (F : rcfType) : is_norm (@cabs F).
Proof.
have I (x y : F) : x%:C%C = y%:C%C -> x = y by case.
split.
- by move=> x; apply: sqrtr_ge0.
- by apply: I; rewrite -cabsE normr0.
- by move=> x E; apply/normr0_eq0; rewrite cabsE E.
- by move=> x; apply: I; rewrite -!cabsE normrN.
- by move=> x y; rewrite -lecR rmorphD /= -!cabsE ler_norm_add.
- by move=> x y; apply: I; rewrite rmorphM /= -!cabsE normrM.
Qed.

Section Arrays.
Variables (F : realFieldType) (C : ringType) (nrm : C -> F).
Hypothesis N : is_norm nrm.

Lemma nrm_sub x y : nrm (x - y) = nrm (y - x).
Proof. by rewrite -(nrmN N) opprB. Qed.

Section MN.
Variables (m n : nat).
Implicit Types (A B : 'M[C]_(m, n)) (rtol atol : F).

Lemma amax_ge0 A : 0 <= amax nrm A.
Proof. exact: bigmax_ge0. Qed.

Lemma amax_ub A i j : nrm (A i j) <= amax nrm A.
Proof.
apply: le_trans (bigmax_ub (fun i => \big[Num.max/0]_(j < n) nrm (A i j)) i).
exact: (bigmax_ub (fun j => nrm (A i j))).
Qed.

Lemma amax_attained A : amax nrm A = 0 \/ exists i j, amax nrm A = nrm (A i j).
Proof.
rewrite /amax; case: (bigmax_attained (index_enum _) (fun i => \big[Num.max/0]_(j < n) nrm (A i j))); first by left.
case=> i _ ->; case: (bigmax_attained (index_enum _) (fun j => nrm (A i j))); first by left.
by case=> j _ ->; right; exists i, j.
Qed.

(* C54: allclose is exactly the bound by atol + rtol * (largest entry of a or b) *)
Theorem C54_allclose_iff rtol atol A B :
  aclose nrm rtol atol A B <->
  forall i j, nrm (A i j - B i j) <= atol + rtol * Num.max (amax nrm A) (amax nrm B).
Proof.
split=> [/forallP H i j|H]; first exact: (forallP (H i) j).
by apply/forallP => i; apply/forallP => j; apply: H.
Qed.

Theorem C54_allclose_refl rtol atol A : 0 <= rtol -> 0 <= atol -> aclose nrm rtol atol A A.
Proof.
move=> r0 a0; apply/C54_allclose_iff => i j; rewrite subrr (nrm0 N) addr_ge0 // mulr_ge0 //.
by rewrite le_maxr amax_ge0.
Qed.

Theorem C54_allclose_sym rtol atol A B : aclose nrm rtol atol A B = aclose nrm rtol atol B A.
Proof.
by apply: eq_forallb => i; apply: eq_forallb => j; rewrite nrm_sub maxC.
Qed.

(* with zero tolerances it is equality *)
Theorem C54_allclose_exact A B : aclose nrm 0 0 A B <-> A = B.
Proof.
split=> [/C54_allclose_iff H|->]; last exact: C54_allclose_refl.
apply/matrixP => i j; have := H i j; rewrite mul0r addr0 => h.
have /(nrm0P N) /eqP : nrm (A i j - B i j) = 0 by apply/eqP; rewrite eq_le h (nrm_ge0 N).
by rewrite subr_eq0 => /eqP.
Qed.

(* larger tolerances accept more *)
Theorem C54_allclose_mono rtol atol rtol' atol' A B : rtol <= rtol' -> atol <= atol' ->
  aclose nrm rtol atol A B -> aclose nrm rtol' atol' A B.
Proof.
move=> h1 h2 /C54_allclose_iff H; apply/C54_allclose_iff => i j; apply: le_trans (H i j) _.
by rewrite ler_add // ler_wpmul2r // le_maxr amax_ge0.
Qed.
End MN.
End Arrays.

(* allclose against a zero array *)
Lemma aclose0 (F : realFieldType) (C : ringType) (nrm : C -> F) (N : is_norm nrm) m n rtol atol (A : 'M[C]_(m, n)) :
  aclose nrm rtol atol A 0 = [forall i, forall j, nrm (A i j) <= atol + rtol * amax nrm A].
Proof.
apply: eq_forallb => i; apply: eq_forallb => j; rewrite mxE subr0 (_ : Num.max _ _ = amax nrm A) //.
apply/max_idPl; rewrite (_ : amax nrm 0 = 0) ?amax_ge0 //.
by case: (amax_attained nrm (0 : 'M[C]_(m, n))) => [//|[a [b ->]]]; rewrite mxE (nrm0 N).
Qed.

(* ---- C55 prop_to_id ---- *)
Section PropToId.
Variables (F : realFieldType) (C : fieldType) (nrm : C -> F) (n : nat).
Hypothesis N : is_norm nrm.
Implicit Types A : 'M[C]_n.+1.

Lemma isclose_exact x y : np_isclose nrm 0 0 x y = (x == y).
Proof.
rewrite /np_isclose mul0r addr0 -subr_eq0; apply/idP/eqP => [h|->]; last by rewrite (nrm0 N).
by apply: (nrm0P N); apply/eqP; rewrite eq_le h (nrm_ge0 N).
Qed.
Lemma allclose_exact (A B : 'M[C]_n.+1) : np_allclose nrm 0 0 A B = (A == B).
Proof.
apply/idP/eqP => [/forallP H|->].
  by apply/matrixP => i j; apply/eqP; rewrite -isclose_exact; apply: (forallP (H i)).
by apply/forallP => i; apply/forallP => j; rewrite isclose_exact.
Qed.

Theorem C55_prop_to_id A c : prop_to_id nrm 0 0 A = (true, c) <-> A = c%:M.
Proof.
rewrite /prop_to_id isclose_exact !allclose_exact; case: (altP (A 0 0 =P 0)) => a0.
- split=> [[/eqP -> <-]|E]; first by rewrite raddf0.
  by move: a0; rewrite E !mxE eqxx mulr1n => ->; rewrite raddf0 eqxx.
- case: eqP => E; split=> [|E'] //.
  + case=> <-; apply/matrixP => i j; move/matrixP: E => /(_ i j); rewrite !mxE => E.
    by rewrite -[A i j](divfK a0) E mulr_natl.
  + by rewrite E' mxE eqxx.
  + case: E; apply/matrixP => i j; move: a0; rewrite E' !mxE eqxx mulr1n => c0.
    by case: (i == j); rewrite ?mulr1n ?mulr0n ?mul0r ?divff.
Qed.

(* a rejected matrix always comes with the factor 0 *)
Theorem C55_prop_to_id_false rtol atol A c : prop_to_id nrm rtol atol A = (false, c) -> c = 0.
Proof. by rewrite /prop_to_id; case: ifP => _; [case=> _ <- | case: ifP => // _ [<-]]. Qed.

(* with tolerances: an accepted matrix is close to the returned multiple *)
Theorem C55_prop_to_id_tol rtol atol A c : 0 <= atol -> prop_to_id nrm rtol atol A = (true, c) ->
  forall i j, nrm (A i j - (c%:M : 'M_n.+1) i j) <= (if c == 0 then atol else nrm c * (atol + rtol * (i == j)%:R)).
Proof.
move=> r0; rewrite /prop_to_id; case: ifP => [h0 [/forallP H <-] i j|h0].
  have := forallP (H i) j; rewrite /np_isclose !mxE (nrm0 N) mulr0 addr0.
  by rewrite mul0rn eqxx.
case: ifP => // /forallP H [<-] i j.
have c0 : A 0 0 != 0.
  by apply/negP => /eqP E; move: h0; rewrite E /np_isclose subrr (nrm0 N) mulr0 addr0 r0.
have := forallP (H i) j; rewrite /np_isclose !mxE (negPf c0) => h.
have n1 : nrm 1 = 1.
  have h1 : nrm 1 != 0 by apply/eqP => /(nrm0P N) /eqP; rewrite oner_eq0.
  by apply: (mulfI h1); rewrite -(nrmM N) !mulr1.
have -> : A i j - A 0 0 *+ (i == j) = A 0 0 * (A i j / A 0 0 - (i == j)%:R).
  by rewrite mulrBr mulr_natr mulrC divfK.
rewrite (nrmM N) ler_wpmul2l ?(nrm_ge0 N) //; apply: le_trans h _.
by case: (i == j); rewrite ?n1 ?(nrm0 N).
Qed.
End PropToId.

(* ---- C20 ---- *)
Section ModelEq.
Variables (F : realFieldType) (C : ringType) (nrm : C -> F) (m n : nat).
Variables (K : eqType) (kone : K).
Hypothesis N : is_norm nrm.
Local Notation V := [zmodType of 'M[C]_(m, n)].
Local Notation dict := (dict K V).

(* two models of which neither (or both) is close to zero compare symmetrically *)
Theorem C20_symmetric_partial rtol atol (a b : dict) :
  is_close_to_zero nrm rtol atol a = is_close_to_zero nrm rtol atol b ->
  model_eq nrm kone rtol atol a b = model_eq nrm kone rtol atol b a.
Proof.
rewrite /model_eq => ->; case: ifP => // _; rewrite !all_cat andbC; congr (_ && _).
all: by apply: eq_all => k; rewrite C54_allclose_sym.
Qed.

(* with exact comparisons equality means equal coefficients, and is symmetric *)
Lemma is_close_to_zero_exact (a : dict) : wf_dict kone a ->
  is_close_to_zero nrm 0 0 a <-> forall k, dget kone a k = 0.
Proof.
move=> w; have -> : is_close_to_zero nrm 0 0 a = all (fun kv : pykey K * V => aclose nrm 0 0 (kv.2 : 'M[C]_(m, n)) 0) a.
  by rewrite /is_close_to_zero; case: a w.
split.
- elim: a {w} => //= kv a IH /andP[/(C54_allclose_exact N) h1 /IH h2] k.
  by case: ifP.
- elim: a w => //= kv a IH /andP[nin w] h; apply/andP; split.
    by apply/(C54_allclose_exact N); rewrite -[RHS](h kv.1) /pk_eq eqxx.
  apply: IH => // k; have := h k; case: ifP => // /eqP E _.
  elim: a {h w} nin => //= kw a IH nin; move: nin; rewrite inE negb_or => /andP[ne nin].
  by rewrite /pk_eq E (negPf ne) IH.
Qed.

Theorem C20_exact (a b : dict) : wf_dict kone a -> wf_dict kone b ->
  model_eq nrm kone 0 0 a b <-> forall k, dget kone a k = dget kone b k.
Proof.
move=> wa wb; rewrite /model_eq; case: ifP => [hb|_].
  split=> [/(is_close_to_zero_exact wa) ha k|E]; first by rewrite ha (proj1 (is_close_to_zero_exact wb) hb).
  by apply/(is_close_to_zero_exact wa) => k; rewrite E (proj1 (is_close_to_zero_exact wb) hb).
have miss (d : dict) k : ~~ dhas kone d k -> dget kone d k = 0.
  by elim: d => //= kv d IH; rewrite negb_or => /andP[/negPf -> /IH].
have hask (d d' : dict) k (p : pykey K -> bool) : (forall k k', pk_eq kone k k' -> p k = p k') ->
   all p [seq kv.1 | kv <- d] -> dhas kone d k -> p k.
  by move=> pe; elim: d => //= kv d IH /andP[h1 h2] /orP[/pe ->|/(IH h2)].
have ge (d : dict) k k' : pk_eq kone k k' -> dget kone d k = dget kone d k'.
  by move=> /eqP E; elim: d => //= kv d ->; rewrite /pk_eq E.
split=> [|E]; last by apply/allP => k _; apply/(C54_allclose_exact N); rewrite E.
rewrite all_cat => /andP[ha hb] k.
have pe k1 k2 : pk_eq kone k1 k2 -> aclose nrm 0 0 (dget kone a k1 : 'M[C]_(m, n)) (dget kone b k1) =
     aclose nrm 0 0 (dget kone a k2 : 'M[C]_(m, n)) (dget kone b k2).
  by move=> h; rewrite !(ge _ k1 k2 h).
case h1 : (dhas kone a k); first by apply/(C54_allclose_exact N); apply: (hask a a k _ pe ha h1).
case h2 : (dhas kone b k); first by apply/(C54_allclose_exact N); apply: (hask b b k _ pe hb h2).
by rewrite !miss ?h1 ?h2.
Qed.
End ModelEq.

(* C20 is false: for every positive absolute tolerance and every relative tolerance
   below 1/3 (the defaults are 1e-8 and 1e-5) there are 1x1 models with b == a but a != b *)
Section C20.
Variable F : realFieldType.
Local Notation nrm := (fun x : F => `|x|).

Lemma amax1 (x : F) : amax nrm (x%:M : 'M_1) = `|x|.
Proof.
rewrite /amax !(big_ord_recl, big_ord0) mxE eqxx mulr1n /=.
have -> : Num.max `|x| 0 = `|x| by apply/max_idPl; exact: normr_ge0.
by apply/max_idPl; exact: normr_ge0.
Qed.
Lemma aclose1 rtol atol (x y : F) :
  aclose nrm rtol atol (x%:M : 'M_1) (y%:M) = (`|x - y| <= atol + rtol * Num.max `|x| `|y|).
Proof.
apply/idP/idP => [/C54_allclose_iff /(_ 0 0)|h]; first by rewrite !amax1 !mxE eqxx !mulr1n.
by apply/C54_allclose_iff => i j; rewrite !mxE !ord1 eqxx !mulr1n !amax1.
Qed.

Lemma aclose10 rtol atol (x : F) :
  aclose nrm rtol atol (x%:M : 'M_1) 0 = (`|x| <= atol + rtol * Num.max `|x| 0).
Proof. by have := aclose1 rtol atol x 0; rewrite subr0 normr0 raddf0. Qed.

Theorem C20_symmetric_refuted rtol atol : 0 <= rtol -> 3%:R * rtol < 1 -> 0 < atol ->
  exists a b : dict bool_eqType [zmodType of 'M[F]_1],
    model_eq nrm true rtol atol b a /\ ~~ model_eq nrm true rtol atol a b.
Proof.
move=> r0 r1 a0; pose x := 3%:R / 2%:R * atol.
have x0 : 0 < x by rewrite mulr_gt0 // divr_gt0 ?ltr0n.
exists [:: (Sym true, (x%:M : 'M_1))], [:: (Sym true, (atol%:M : 'M_1))].
have Zx : aclose nrm rtol atol (x%:M : 'M_1) 0 = false.
  rewrite aclose10 (ger0_norm (ltW x0)).
  have -> : Num.max x 0 = x by apply/max_idPl/ltW.
  apply/negP/negP; rewrite -ltNge /x.
  have -> : atol + rtol * (3%:R / 2%:R * atol) = (2%:R + 3%:R * rtol) / 2%:R * atol.
    rewrite mulrDl divff ?pnatr_eq0 // mulrDl mul1r; congr (_ + _).
    by rewrite !mulrA (mulrC rtol).
  rewrite ltr_pmul2r // ltr_pmul2r ?invr_gt0 ?ltr0n //.
  have -> : 2%:R + 3%:R * rtol < 3%:R = (3%:R * rtol < 1) by rewrite [X in _ < X](natrD _ 2 1) ltr_add2l.
  by [] .
have Za : aclose nrm rtol atol (atol%:M : 'M_1) 0.
  rewrite aclose10 (ger0_norm (ltW a0)).
  by rewrite ler_addl mulr_ge0 // le_maxr ltW.
rewrite /model_eq /is_close_to_zero /= Zx Za; split=> //=; rewrite andbT.
have -> : aclose nrm rtol atol (atol%:M : 'M_1) x%:M.
  rewrite aclose1; apply: le_trans (_ : atol <= _); last first.
    by rewrite ler_addl mulr_ge0 // le_maxr normr_ge0.
  have -> : atol - x = - (atol / 2%:R).
    by rewrite /x (natrD _ 2 1) mulrDl divff ?pnatr_eq0 // mulrDl mul1r opprD addrA subrr add0r mul1r mulrC.
  have h2 : 0 <= atol / 2%:R by rewrite divr_ge0 ?ler0n // ltW.
  rewrite normrN (ger0_norm h2) ler_pdivr_mulr ?ltr0n //.
  by rewrite (natrD _ 1 1) mulrDr !mulr1 ler_addl ltW.
by [].
Qed.
End C20.

(* ---- C53 split_list ---- *)
Section Split.
Variables (F : realFieldType) (C : ringType) (nrm : C -> F).
Hypothesis N : is_norm nrm.
Variables (tol : F) (vals : seq C).
Local Notation n := (size vals).
Let far i := nrm (vals`_i.+1 - vals`_i) > tol / n%:R.

Theorem C53_split_empty : split_list nrm tol [::] = Err ZeroDivisionError.
Proof. by []. Qed.

Lemma mem_boundaries i : (i \in boundaries nrm tol vals) = (0 < i < n)%N && far i.-1.
Proof.
apply/mapP/idP => [[j]|/andP[/andP[i0 i1] h]].
  rewrite mem_filter mem_iota => /andP[h /= lt] ->.
  by rewrite /far /= h andbT; case: (size vals) lt.
exists i.-1; last by case: i i0 {i1 h}.
rewrite mem_filter mem_iota /= add0n; apply/andP; split; first exact: h.
by case: i i0 i1 {h} => // i _; case: (size vals).
Qed.

Lemma boundaries_sorted : sorted ltn (boundaries nrm tol vals).
Proof.
rewrite sorted_map; apply: sorted_filter; first by move=> ? ? ?; apply: ltn_trans.
by have := iota_ltn_sorted 0 n.-1; apply: sub_sorted => x y.
Qed.

Lemma zip_cover s b m : path ltn s b -> all (fun i => i < m)%N b -> (s < m)%N ->
  flatten [seq iota p.1 (p.2 - p.1) | p <- zip (s :: b) (rcons b m)] = iota s (m - s) /\
  all (fun p => p.1 < p.2)%N (zip (s :: b) (rcons b m)).
Proof.
elim: b s => [|x b IH] s /=; first by move=> _ _ sm; rewrite cats0 sm.
case/andP=> sx xb /andP[xm bm] sm; have [H1 H2] := IH x xb bm xm.
split; last by rewrite sx.
rewrite H1 -{2}[x](subnKC (ltnW sx)) -iotaD; congr iota.
by lia.
Qed.

Lemma zip_ends s b m p : path ltn s b -> (p \in zip (s :: b) (rcons b m)) ->
  [/\ p.1 = s \/ p.1 \in b, p.2 = m \/ p.2 \in b & forall i, (p.1 < i < p.2)%N -> i \notin b].
Proof.
elim: b s => [|x b IH] s /=.
  by move=> _; rewrite inE => /eqP -> /=; split; [left | left | ].
case/andP=> sx xb; rewrite inE => /orP[/eqP ->|h] /=.
  split; [by left | by right; rewrite mem_head | move=> i /andP[_ ix]].
  rewrite inE negb_or (ltn_eqF ix) /=; apply/negP => ib.
  have /allP /(_ _ ib) := order_path_min ltn_trans xb.
  by rewrite /= ltnNge (ltnW ix).
have [h1 h2 h3] := IH x xb h.
split; [by right; case: h1 => [->|h1]; rewrite inE ?eqxx ?h1 ?orbT | |].
  by case: h2 => [->|h2]; [left | right; rewrite inE h2 orbT].
move=> i hi; rewrite inE negb_or (h3 i hi) andbT.
have x1 : (x <= p.1)%N.
  case: h1 => [-> //|h1]; have /allP /(_ _ h1) := order_path_min ltn_trans xb.
  exact: ltnW.
by case/andP: hi => hi _; rewrite gtn_eqF // (leq_ltn_trans x1 hi).
Qed.

Hypothesis n0 : (0 < n)%N.

Theorem C53_split_list : exists bs, [/\ split_list nrm tol vals = Ok bs,
  (* the blocks are non-empty, consecutive, and cover all indices once, in order *)
  all (fun p => p.1 < p.2)%N bs,
  flatten [seq iota p.1 (p.2 - p.1) | p <- bs] = iota 0 n,
  (* neighbours in one block are close *)
  (forall p i, p \in bs -> (p.1 <= i)%N -> (i.+1 < p.2)%N -> nrm (vals`_i.+1 - vals`_i) <= tol / n%:R) &
  (* neighbours in different blocks are not *)
  (forall p, p \in bs -> (p.2 < n)%N -> nrm (vals`_p.2 - vals`_p.2.-1) > tol / n%:R)].
Proof.
exists (zip (0%N :: boundaries nrm tol vals) (rcons (boundaries nrm tol vals) n)).
have S : path ltn 0%N (boundaries nrm tol vals).
  rewrite path_min_sorted ?boundaries_sorted //.
  by apply/allP => i; rewrite mem_boundaries => /andP[/andP[]].
have A : all (fun i => i < n)%N (boundaries nrm tol vals).
  by apply/allP => i; rewrite mem_boundaries => /andP[/andP[]].
have [H1 H2] := zip_cover S A n0.
split=> //; first by rewrite /split_list; case: vals n0.
- by rewrite H1 subn0.
- move=> p i /(zip_ends S) [_ h2 h3] pi ip.
  have /h3 : (p.1 < i.+1 < p.2)%N by rewrite ltnS pi ip.
  rewrite mem_boundaries negb_and /far /= -leNgt => /orP[/negP []|//].
  apply: leq_trans ip _; case: h2 => [-> //|]; rewrite mem_boundaries => /andP[/andP[_]].
  by move=> h _; apply: ltnW.
- move=> p /(zip_ends S) [_ h2 _]; case: h2 => [->|]; first by rewrite ltnn.
  rewrite mem_boundaries => /andP[/andP[p0 _] h] _.
  by move: h; rewrite /far prednK.
Qed.

(* hence all values of a block lie within tol of each other *)
Theorem C53_block_spread bs p i j : 0 < tol -> split_list nrm tol vals = Ok bs -> p \in bs ->
  (p.1 <= i <= j)%N -> (j < p.2)%N -> nrm (vals`_j - vals`_i) < tol.
Proof.
move=> t0 E pb /andP[pi ij] jp; have [bs' [E' H1 H2 H3 _]] := C53_split_list.
have Eb : bs' = bs by move: E'; rewrite E => -[].
rewrite {bs' E'}Eb in H1 H2 H3.
have pn : (p.2 <= n)%N.
  have : (p.2.-1 \in iota 0 n).
    rewrite -H2; apply/flattenP; exists (iota p.1 (p.2 - p.1)); first exact: (map_f (fun p : nat * nat => iota p.1 (p.2 - p.1))).
    have lt := allP H1 _ pb; rewrite mem_iota subnKC ?(ltnW lt) //.
    by case: p.2 lt => // q lt /=; rewrite -ltnS lt ltnSn.
  by rewrite mem_iota /= add0n; case: p.2.
have H : nrm (vals`_j - vals`_i) <= (j - i)%:R * (tol / n%:R).
  elim: j ij jp => [|j IH] ij jp.
    by move: ij; rewrite leqn0 => /eqP ->; rewrite subrr (nrm0 N) mul0r.
  move: ij; rewrite leq_eqVlt => /orP[/eqP <-|]; first by rewrite subnn subrr (nrm0 N) mul0r.
  rewrite ltnS => ij; rewrite subSn // -[vals`_j.+1](subrK vals`_j) -addrA.
  apply: le_trans (nrmD N _ _) _; rewrite -[(j - i).+1]addn1 natrD mulrDl mul1r addrC ler_add //.
    by apply: IH => //; apply: ltnW.
  by apply: (H3 p) => //; apply: leq_trans pi ij.
apply: le_lt_trans H _; rewrite mulrCA -[X in _ < X]mulr1 ltr_pmul2l // ltr_pdivr_mulr ?ltr0n // mul1r ltr_nat.
by apply: leq_trans pn; apply: leq_ltn_trans jp; apply: leq_subr.
Qed.
End Split.

Example C53_example :
  split_list (fun x : rat => `|x|) (1 / 10%:R) [:: 0; 1 / 100%:R; 1; 1; 2%:R]%R
  = Ok [:: (0, 2); (2, 4); (4, 5)]%N.
Proof. by vm_compute. Qed.

(* ---- C79 _inv_int ---- *)
Section InvInt.
Variables (n : nat) (rnd : rat -> int).
Hypothesis rndK : forall k : int, rnd k%:~R = k.
Implicit Types A : 'M[rat]_n.+1.
Local Notation isint A := (forall i j, exists k : int, A i j = k%:~R).

Lemma det_int_adj (A : 'M[rat]_n.+1) (B : 'M[int]_n.+1) : A = map_mx intr B -> \det A = (\det B)%:~R.
Proof. by move=> ->; rewrite det_map_mx. Qed.

Theorem C79_inv_int A :
  (exists B, inv_int rnd A = Ok B) <-> (isint A /\ (\det A = 1 \/ \det A = -1)).
Proof.
rewrite /inv_int /=; split.
- case=> B; case: ifP => // /negbT; rewrite negb_or !negbK => /andP[h1 h2] _; split.
    by move=> i j; have /QintP := forallP (forallP h1 i) j.
  by move: h2; rewrite eqr_norml => /andP[/orP[] /eqP -> _]; [left|right].
- case=> h1 h2; case: ifP => // [|_]; last by eexists.
  case/orP => [/negP []|/negP []].
    by apply/forallP => i; apply/forallP => j; apply/QintP; apply: h1.
  by case: h2 => ->; rewrite ?normrN normr1.
Qed.

Theorem C79_inv_int_correct A B : inv_int rnd A = Ok B ->
  A *m map_mx intr B = 1%:M /\ map_mx intr B *m A = 1%:M.
Proof.
move=> E; have [h1 h2] := (proj1 (C79_inv_int A) (ex_intro _ B E)).
move: E; rewrite /inv_int /=; case: ifP => // _ [<-].
pose A' : 'M[int]_n.+1 := \matrix_(i, j) numq (A i j).
have EA : A = map_mx intr A'.
  by apply/matrixP => i j; rewrite !mxE; have [k ->] := h1 i j; rewrite numq_int.
have dA := det_int_adj EA.
have uA : A \in unitmx by rewrite unitmxE unitfE; case: h2 => ->; rewrite ?oppr_eq0 oner_eq0.
have -> : map_mx intr (map_mx rnd (invmx A)) = invmx A.
  have EI : exists B' : 'M[int]_n.+1, invmx A = map_mx intr B'.
    rewrite /invmx uA EA -map_mx_adj det_map_mx.
    have : \det A' = 1 \/ \det A' = -1.
      move: h2; rewrite dA => -[|] h; [left|right]; apply/eqP; rewrite -(eqr_int rat_numDomainType) h //.
    case=> ->; [exists (\adj A') | exists (- \adj A')].
      by rewrite invr1 scale1r.
    by rewrite rmorphN /= invrN invr1 scaleN1r map_mxN.
  by case: EI => B' ->; apply/matrixP => i j; rewrite !mxE rndK.
by rewrite mulmxV // mulVmx.
Qed.
End InvInt.
Theorem C79_inv_int_empty rnd (A : 'M[rat]_0) : inv_int rnd A = Ok 0.
Proof. by []. Qed.

(* ---- C21 eliminate_zeros, around ---- *)
Section Eliminate.
Variables (F : realFieldType) (V : Type) (fnorm : V -> F) (K : Type).
Implicit Types d : seq (K * V).

(* exactly the terms with norm below max(atol, rtol * largest norm) are removed *)
Theorem C21_removes_exactly rtol atol d kv :
  List.In kv (eliminate_zeros fnorm rtol atol d) <->
  List.In kv d /\ Num.max atol (max_norm fnorm d * rtol) <= fnorm kv.2.
Proof.
have -> : eliminate_zeros fnorm rtol atol d = [seq kv <- d | ~~ (fnorm kv.2 < elim_tol fnorm rtol atol d)].
  by rewrite /eliminate_zeros; case: d.
by rewrite In_filter -leNgt.
Qed.

(* the remaining terms keep their order *)
Theorem C21_sub_dictionary rtol atol d : exists p, eliminate_zeros fnorm rtol atol d = [seq kv <- d | p kv].
Proof.
by exists (fun kv => ~~ (fnorm kv.2 < elim_tol fnorm rtol atol d)); rewrite /eliminate_zeros; case: d.
Qed.

Theorem C21_idempotent rtol atol d : 0 <= rtol ->
  eliminate_zeros fnorm rtol atol (eliminate_zeros fnorm rtol atol d) = eliminate_zeros fnorm rtol atol d.
Proof.
move=> r0; set d' := eliminate_zeros fnorm rtol atol d.
have Em (e : seq (K * V)) : eliminate_zeros fnorm rtol atol e = [seq kv <- e | ~~ (fnorm kv.2 < elim_tol fnorm rtol atol e)].
  by case: e.
have le : max_norm fnorm d' <= max_norm fnorm d.
  apply: bigmax_lub; first exact: bigmax_ge0.
  move=> kv /C21_removes_exactly [h _].
  exact: (bigmax_ubIn (fun kv : K * V => fnorm kv.2) h).
have H : all (fun kv => ~~ (fnorm kv.2 < elim_tol fnorm rtol atol d')) d'.
  apply/allIn => kv /C21_removes_exactly [h1 h2]; rewrite -leNgt; apply: le_trans h2.
  rewrite /elim_tol le_maxl !le_maxr lexx /=.
  by rewrite ler_wpmul2r ?orbT.
by rewrite Em; move: H; elim: d' {le} (elim_tol _ _ _ _) => //= kv e IH t /andP[-> /IH ->].
Qed.

Theorem C21_keeps_largest rtol atol d kv : rtol <= 1 -> List.In kv d -> fnorm kv.2 = max_norm fnorm d ->
  atol <= fnorm kv.2 -> List.In kv (eliminate_zeros fnorm rtol atol d).
Proof.
move=> r1 h E ha; apply/C21_removes_exactly; split=> //; rewrite le_maxl ha E /=.
by rewrite -[X in _ <= X]mulr1 ler_wpmul2l // /max_norm; apply: bigmax_ge0.
Qed.

Hypothesis n0 : forall v, 0 <= fnorm v.
Theorem C21_empty_iff rtol atol d : 0 <= rtol <= 1 ->
  eliminate_zeros fnorm rtol atol d = [::] <-> forall kv, List.In kv d -> fnorm kv.2 < atol.
Proof.
case/andP=> r0 r1; split=> [E kv h|H].
- case: (bigmax_attained d (fun kv : K * V => fnorm kv.2)) => [M0|[kw hw Mw]].
    have Z : fnorm kv.2 = 0.
      apply/eqP; rewrite eq_le n0 andbT -M0; exact: (bigmax_ubIn (fun kv : K * V => fnorm kv.2) h).
    rewrite ltNge; apply/negP => ha.
    suff : List.In kv (eliminate_zeros fnorm rtol atol d) by rewrite E.
    by apply: C21_keeps_largest => //; rewrite Z /max_norm M0.
  apply: le_lt_trans (_ : fnorm kw.2 < _).
    by rewrite -Mw; apply: (bigmax_ubIn (fun kv : K * V => fnorm kv.2) h).
  rewrite ltNge; apply/negP => ha.
  suff : List.In kw (eliminate_zeros fnorm rtol atol d) by rewrite E.
  by apply: C21_keeps_largest.
- apply: sizeIn0 => kv /C21_removes_exactly [h1]; rewrite le_maxl => /andP[h2 _].
  by have := H kv h1; rewrite ltNge h2.
Qed.
End Eliminate.

(* a rtol above 1 may remove everything, even the largest term *)
Example C21_large_rtol : eliminate_zeros (fun x : rat => `|x|) 2%:R 0 [:: (tt, 1 : rat)] = [::].
Proof. by rewrite /eliminate_zeros /= /elim_tol /max_norm big_cons big_nil. Qed.

Section Frobenius.
Variables (F : rcfType) (m n : nat).
Local Notation C := F[i].
(* model.py:720-721 *)
Definition frob (A : 'M[C]_(m, n)) : F := Num.sqrt (\sum_(p : 'I_m * 'I_n) cabs (A p.1 p.2) ^+ 2).

Lemma frob_ge0 A : 0 <= frob A. Proof. exact: sqrtr_ge0. Qed.
Lemma frob0 : frob 0 = 0.
Proof. by rewrite /frob big1 ?sqrtr0 // => p _; rewrite mxE (nrm0 (is_norm_complex F)) expr0n. Qed.
Lemma frobD A B : frob (A + B) <= frob A + frob B.
Proof.
apply: le_trans (minkowski _ _ _); rewrite ler_wsqrtr // ler_sum // => p _.
have N := is_norm_complex F; have h := nrm_ge0 N.
by rewrite ler_expn2r ?nnegrE ?addr_ge0 // mxE (nrmD N).
Qed.
Lemma frobZ c A : frob (c *: A) = cabs c * frob A.
Proof.
have N := is_norm_complex F.
rewrite /frob; under eq_bigr => p _ do rewrite mxE (nrmM N) exprMn.
by rewrite -mulr_sumr sqrtrM ?sqr_ge0 // sqrtr_sqr ger0_norm // (nrm_ge0 N).
Qed.
Lemma frob_entry (A : 'M[C]_(m, n)) i j : cabs (A i j) <= frob A.
Proof.
have N := is_norm_complex F.
rewrite -(ger0_norm (nrm_ge0 N (A i j))) -sqrtr_sqr ler_wsqrtr // (bigD1 (i, j)) //= ler_addl.
by apply: sumr_ge0 => p _; apply: sqr_ge0.
Qed.

Variables (K : eqType) (kone : K) (Mom : eqType).
Local Notation model := (model K Mom [lmodType C of 'M[C]_(m, n)]).

(* evaluation at symbols of modulus at most 1 changes by at most #removed * tolerance *)
Theorem C21_evaluation_error (ev : K -> C) rtol atol (a : model) :
  (forall k, cabs (ev k) <= 1) ->
  let d' := eliminate_zeros frob rtol atol (mdata a) in
  let t := elim_tol frob rtol atol (mdata a) in
  frob (meval kone ev a - meval kone ev (Mk d' (mkeep a) (mmom a)))
    <= (size (mdata a) - size d')%:R * t.
Proof.
move=> h1; cbv zeta; set d' := eliminate_zeros _ _ _ _; set t := elim_tol _ _ _ _.
have -> : d' = [seq kv <- mdata a | ~~ (frob kv.2 < t)] by rewrite /d' /eliminate_zeros /t; case: (mdata a).
rewrite /meval /= big_filter size_filter.
rewrite (bigID (fun kv : pykey K * 'M[C]_(m, n) => ~~ (frob kv.2 < t))) /= addrAC subrr add0r.
set small := fun kv : pykey K * 'M[C]_(m, n) => frob kv.2 < t.
have -> : (size (mdata a) - count (predC small) (mdata a))%N = count small (mdata a).
  by rewrite -(count_predC small) addnK.
elim: (mdata a) => [|kv d IH] /=; first by rewrite big_nil frob0 mul0r.
rewrite big_cons negbK /small; case: ifP => ht; last by rewrite add0n.
rewrite natrD mulrDl mul1r; apply: le_trans (frobD _ _) _; rewrite ler_add //.
rewrite frobZ; apply: le_trans (ltW ht).
by rewrite -[X in _ <= X]mul1r ler_wpmul2r ?frob_ge0.
Qed.

(* around: values are rounded entrywise, terms that vanish are dropped *)
Variables (rnd : 'M[C]_(m, n) -> 'M[C]_(m, n)) (eps : F).
Hypothesis rnd_err : forall (A : 'M[C]_(m, n)) i j, cabs (rnd A i j - A i j) <= eps.

Theorem C21_around_terms (rtol atol : F) (d : seq (K * 'M[C]_(m, n))) k v :
  let zero := fun A => np_allclose (@cabs F) rtol atol A (0 : 'M[C]_(m, n)) in
  List.In (k, v) (around rnd zero d) <->
  exists2 w, List.In (k, w) d & v = rnd w /\ exists i j, atol < cabs (rnd w i j).
Proof.
move=> zero.
have zP A : ~~ zero A <-> exists i j, atol < cabs (A i j).
  split=> [|[i [j h]]].
    rewrite /zero /np_allclose negb_forall => hi.
    case: (existsP hi) => i; rewrite negb_forall => hj; case: (existsP hj) => j h.
    exists i, j; move: h; rewrite /np_isclose mxE subr0 (nrm0 (is_norm_complex F)) mulr0 addr0.
    by rewrite -ltNge.
  apply/negP => /forallP /(_ i) /forallP /(_ j); rewrite /np_isclose mxE subr0 (nrm0 (is_norm_complex F)) mulr0 addr0.
  by rewrite leNgt h.
rewrite /around; elim: d => [|[k' w] d IH] /=; first by split=> // -[].
case Z: (zero (rnd w)) => /=.
  rewrite IH; split=> [[w' h1 h2]|[w' [[_ <-]|h1] h2]]; try by exists w' => //; right.
  by case: h2 => _ /zP; rewrite Z.
split.
- case=> [[<- <-]|/IH [w' h1 h2]]; last by exists w' => //; right.
  by exists w; [left | split=> //; apply/zP; rewrite Z].
- case=> w' [[-> ->] [-> _]|h1 h2]; first by left.
  by right; apply/IH; exists w'.
Qed.

(* every entry changes by at most the rounding error, plus atol for dropped terms *)
Theorem C21_around_error (rtol atol : F) (d : seq (pykey K * 'M[C]_(m, n))) k i j : 0 <= atol -> 0 <= eps ->
  let zero := fun A => np_allclose (@cabs F) rtol atol A (0 : 'M[C]_(m, n)) in
  wf_dict kone (d : dict K [zmodType of 'M[C]_(m, n)]) ->
  cabs ((dget kone (around rnd zero d : dict K [zmodType of 'M[C]_(m, n)]) k : 'M[C]_(m, n)) i j
        - (dget kone (d : dict K [zmodType of 'M[C]_(m, n)]) k : 'M[C]_(m, n)) i j) <= eps + atol.
Proof.
move=> a0 e0 zero; have N := is_norm_complex F.
elim: d => [|kv d IH] /=; first by rewrite subrr (nrm0 N) addr_ge0.
case/andP=> nin w; case Z: (zero (rnd kv.2)) => /=; case: ifP => // E; last first.
- exact: IH.
- by apply: le_trans (rnd_err _ _ _) _; rewrite ler_addl.
- exact: IH.
have -> : dget kone (pmap (fun kv => let v := rnd kv.2 in if zero v then None else Some (kv.1, v)) d : dict K [zmodType of 'M[C]_(m, n)]) k = 0.
  elim: d nin {IH w} => //= kw d IH; rewrite inE negb_or => /andP[ne /IH h].
  case: (zero _) => //=; case: ifP => // /eqP E'.
  by move: ne; rewrite -(eqP E) E' eqxx.
rewrite mxE sub0r (nrmN N) -[kv.2 i j](subrK (rnd kv.2 i j)); apply: le_trans (nrmD N _ _) _.
rewrite ler_add //; first by rewrite -(nrmN N) opprB.
move: Z => /forallP /(_ i) /forallP /(_ j).
by rewrite /np_isclose mxE subr0 (nrm0 N) mulr0 addr0.
Qed.
End Frobenius.

Example C21_example :
  eliminate_zeros (fun x : rat => `|x|) (1 / 10%:R) 0 [:: (1%N, 1 : rat); (2%N, 1 / 20%:R); (3%N, - (1 / 2%:R))]
   = [:: (1%N, 1 : rat); (3%N, - (1 / 2%:R))].
Proof. by rewrite /eliminate_zeros /elim_tol /max_norm !big_cons big_nil; vm_compute. Qed.

Example C55_example : prop_to_id (fun x : rat => `|x|) 0 0 (3%:R%:M : 'M[rat]_2) = (true, 3%:R).
Proof. by apply/(C55_prop_to_id (is_norm_real _)). Qed.

Example C79_example (rnd : rat -> int) (rK : forall k : int, rnd k%:~R = k) :
  is_ok (inv_int rnd (- 1%:M : 'M[rat]_2)) /\ ~~ is_ok (inv_int rnd (2%:R%:M : 'M[rat]_2)).
Proof.
split.
- suff [B ->] : exists B, inv_int rnd (- 1%:M : 'M[rat]_2) = Ok B by [].
  apply/C79_inv_int => //; split; last by left; rewrite -scaleN1r detZ det1 mulr1.
  by move=> i j; exists (- (i == j)%:R : int); rewrite !mxE; case: (i == j).
- apply/negP => h.
  have /C79_inv_int [_] : exists B, inv_int rnd (2%:R%:M : 'M[rat]_2) = Ok B.
    by case: inv_int h => // B _; exists B.
  by rewrite det_scalar => -[].
Qed.

Print Assumptions C20_symmetric_partial.
Print Assumptions C20_exact.
Print Assumptions C20_symmetric_refuted.
Print Assumptions C21_idempotent.
Print Assumptions C21_evaluation_error.
Print Assumptions C21_around_error.
Print Assumptions C53_split_list.
Print Assumptions C53_block_spread.
Print Assumptions C54_allclose_sym.
Print Assumptions C55_prop_to_id.
Print Assumptions C55_prop_to_id_tol.
Print Assumptions C79_inv_int_correct.
