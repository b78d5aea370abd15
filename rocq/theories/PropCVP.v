(* C57: cvp *)
From mathcomp Require Import all_ssreflect all_algebra zify.
From Verif Require Import Prelude LinSpan NullSpec Complement RingTac Continuum PropContinuum LLL PropLLL CVP.

Set Implicit Arguments.
Unset Strict Implicit.
Unset Printing Implicit Defensive.
Import Order.TTheory GRing.Theory Num.Theory.
Local Open Scope ring_scope.

Section CVP.
Variables (F : rcfType) (m d : nat).
Local Notation N := m.+1.
Local Notation point := 'rV[int]_N.
Let R := [comRingType of F].
Add Ring Rr : (R_ring R).
Implicit Types (B : 'M[F]_(N, d)) (v : 'rV[F]_d) (z w : point).

Lemma dotE n (x y : 'rV[F]_n) : dot x y = (x *m y^T) 0 0.
Proof. by rewrite mxE; apply: eq_bigr => i _; rewrite !mxE. Qed.
Lemma cauchy_schwarz n (x y : 'rV[F]_n) : dot x y ^+ 2 <= dot x x * dot y y.
Proof.
case: (eqVneq y 0) => [->|y0]; first by rewrite !dot0r mulr0 expr0n.
have yy : 0 < dot y y by rewrite lt_def dot_ge0 andbT dot_eq0.
have := dot_ge0 (dot y y *: x - dot x y *: y).
have -> : dot (dot y y *: x - dot x y *: y) (dot y y *: x - dot x y *: y) = dot y y * (dot x x * dot y y - dot x y ^+ 2).
  rewrite dotBl !dotZl !(dotC _ (_ - _)) !dotBl !dotZl (dotC y x).
  move: (dot x x) (dot y y) (dot x y) => a b c; ringm R.
by rewrite pmulr_rge0 // subr_ge0.
Qed.
Lemma norm_ge0 n (x : 'rV[F]_n) : 0 <= norm x. Proof. exact: sqrtr_ge0. Qed.
Lemma norm2 n (x : 'rV[F]_n) : norm x ^+ 2 = dot x x. Proof. by rewrite sqr_sqrtr ?dot_ge0. Qed.
Lemma le_norm n (x y : 'rV[F]_n) : (norm x <= norm y) = (dot x x <= dot y y).
Proof. by rewrite -!norm2 ler_pexpn2r ?nnegrE ?norm_ge0. Qed.

Lemma pythagoras n (x y : 'rV[F]_n) : dot x y = 0 -> dot (x + y) (x + y) = dot x x + dot y y.
Proof. by move=> o; rewrite dotDl !dotDr (dotC y x) o addr0 add0r. Qed.

Section Basis.
Variable B : 'M[F]_(N, d).
Hypothesis fB : row_free B.
Let G := B *m B^T.
Lemma gram_unit : G \in unitmx.
Proof.
rewrite -row_free_unit -kermx_eq0; apply/rowV0P => x /sub_kermxP; rewrite /G mulmxA => h.
have : dot (x *m B) (x *m B) = 0 by rewrite dotE trmx_mul mulmxA h mul0mx mxE.
by move/eqP; rewrite dot_eq0 mulmx_free_eq0 // => /eqP.
Qed.
Lemma gram_inv_sym : (invmx G)^T = invmx G.
Proof. by rewrite trmx_inv trmx_mul trmxK. Qed.
Lemma dual_dot (y : 'rV[F]_N) i : dot (y *m B) (row i (invmx G *m B)) = y 0 i.
Proof.
rewrite dotE rowE !trmx_mul gram_inv_sym !mulmxA -[y *m B *m B^T]mulmxA -/G mulmxK ?gram_unit //.
by rewrite trmx_delta -colE mxE.
Qed.
Lemma dual_norm i : dot (row i (invmx G *m B)) (row i (invmx G *m B)) = invmx G i i.
Proof. by rewrite {1}row_mul dual_dot mxE. Qed.
Lemma inv_diag_gt0 i : 0 < invmx G i i.
Proof.
rewrite -dual_norm lt_def dot_ge0 andbT dot_eq0; apply/eqP => e.
have := dual_dot (delta_mx 0 i) i; rewrite e dot0r mxE !eqxx => /eqP.
by rewrite eq_sym oner_eq0.
Qed.
(* a coordinate is bounded by the length: the distance between two opposite faces of the parallelepiped *)
Lemma coordinate_bound (y : 'rV[F]_N) i : y 0 i ^+ 2 <= dot (y *m B) (y *m B) * invmx G i i.
Proof. by rewrite -{1}(dual_dot y i) -dual_norm cauchy_schwarz. Qed.
Lemma max_diag_ge i : invmx G i i <= max_diag B.
Proof.
rewrite /max_diag -/G; have : i \in index_enum [finType of 'I_N] by rewrite mem_index_enum.
elim: (index_enum _) => // j s IH; rewrite inE big_cons le_maxr => /orP[/eqP <-|/IH ->]; by rewrite ?lexx ?orbT.
Qed.
Lemma max_diag_gt0 : 0 < max_diag B.
Proof. exact: lt_le_trans (inv_diag_gt0 0) (max_diag_ge 0). Qed.
Lemma radius_gt0 : 0 < radius B.
Proof. by rewrite divr_gt0 ?invr_gt0 ?ltr0n // sqrtr_gt0 max_diag_gt0. Qed.
Lemma coordinate_radius (y : 'rV[F]_N) i : `|y 0 i| * (radius B *+ 2) <= norm (y *m B).
Proof.
have mp := max_diag_gt0.
have h : `|y 0 i| <= norm (y *m B) * Num.sqrt (max_diag B).
  rewrite -(@ler_pexpn2r _ 2) ?nnegrE ?mulr_ge0 ?normr_ge0 ?norm_ge0 ?sqrtr_ge0 // exprMn norm2 (sqr_sqrtr (ltW mp)).
  rewrite real_normK ?num_real //; apply: le_trans (coordinate_bound y i) _.
  by rewrite ler_wpmul2l ?dot_ge0 ?max_diag_ge.
rewrite /radius -mulrnAl -(mulr_natr 2^-1) mulVf ?pnatr_eq0 // mul1r ler_pdivr_mulr // sqrtr_gt0.
by [].
Qed.
Lemma projection_dist (x : 'rV[F]_N) v : dot (x *m B - v) (x *m B - v) =
  dot (x *m B - coordinates B v *m B) (x *m B - coordinates B v *m B) + dot (coordinates B v *m B - v) (coordinates B v *m B - v).
Proof.
have e : x *m B - v = (x *m B - coordinates B v *m B) + (coordinates B v *m B - v) by rewrite addrA subrK.
have o : dot (x *m B - coordinates B v *m B) (coordinates B v *m B - v) = 0.
  rewrite -mulmxBl dotC dotE trmx_mul mulmxA mulmxBl -[_ *m B *m B^T]mulmxA /coordinates mulmxKV ?gram_unit // subrr mul0mx mxE.
  by [].
by rewrite e pythagoras.
Qed.
End Basis.

(* ---- the box ---- *)
Lemma mem_box (c z : point) l : (z \in box c l) = [forall i, `|z 0 i - c 0 i| <= l%:Z].
Proof.
apply/idP/idP => [/mapP[f _ ->]|/forallP h].
  apply/forallP => i; rewrite mxE; move: (ltn_ord (f i)) (c 0 i); move: (nat_of_ord (f i)) => k kl ci.
  lia.
have lt i : (absz (z 0 i - c 0 i + l%:Z)%R < l.*2.+1)%N by move: (h i); lia.
apply/mapP; exists [ffun i => Ordinal (lt i)]; first by rewrite mem_enum.
by apply/rowP => i; rewrite mxE ffunE /=; move: (h i); lia.
Qed.
Lemma uniq_box (c : point) l : uniq (box c l).
Proof.
rewrite map_inj_uniq ?enum_uniq // => f g /rowP e; apply/ffunP => i; apply: val_inj => /=.
by have := e i; rewrite !mxE => /addrI [].
Qed.
Lemma size_box (c : point) l : size (box c l) = (l.*2.+1 ^ N)%N.
Proof. by rewrite size_map -cardE card_ffun !card_ord. Qed.
Lemma sub_box (c : point) l l' : (l <= l')%N -> {subset box c l <= box c l'}.
Proof. by move=> h z; rewrite !mem_box => /forallP b; apply/forallP => i; move: (b i); lia. Qed.

(* ---- sorted lists ---- *)
Lemma lt_take T (s : seq T) k i : (i < size (take k s))%N -> (i < k)%N.
Proof. by rewrite size_take; case: (ltnP k (size s)) => // h1 h2; apply: leq_trans h2 h1. Qed.
Section Sorted.
Variables (T : eqType) (x0 : T) (key : T -> F).
Local Notation le_key := (fun x y => key x <= key y).
Lemma le_key_trans : transitive le_key. Proof. by move=> y x z; apply: le_trans. Qed.
Lemma sorted_nth_le s i j : sorted le_key s -> (i <= j)%N -> (j < size s)%N -> key (nth x0 s i) <= key (nth x0 s j).
Proof.
move=> so ij js; apply: (sorted_leq_nth le_key_trans (fun x => lexx (key x)) x0 so) => //; rewrite inE //.
exact: leq_ltn_trans ij js.
Qed.
Lemma sorted_take s k x y : sorted le_key s -> x \in take k s -> y \in drop k s -> key x <= key y.
Proof.
move=> so /(nthP x0)[i]; rewrite size_take => il <- /(nthP x0)[j]; rewrite size_drop => jl <-.
have ik : (i < k)%N by move: il jl; case: (ltnP k (size s)); lia.
rewrite nth_take // nth_drop; apply: sorted_nth_le => //; last by rewrite -ltn_subRL.
by apply: leq_trans (ltnW ik) (leq_addr _ _).
Qed.
(* an element of rank k is at most D if there are more than k elements of key at most D *)
Lemma sorted_rank s D k : sorted le_key s -> (k < count (fun x => key x <= D)%R s)%N -> key (nth x0 s k) <= D.
Proof.
move=> so h; rewrite leNgt; apply/negP => lt.
have ks : (k < size s)%N := leq_trans h (count_size _ _).
suff : (count (fun x => key x <= D)%R s <= k)%N by rewrite leqNgt h.
rewrite -(cat_take_drop k s) count_cat; have -> : count (fun x => key x <= D) (drop k s) = 0%N.
  apply/eqP; rewrite -leqn0 leqNgt -has_count; apply/hasPn => x /(nthP x0)[j]; rewrite size_drop => jl <-.
  rewrite nth_drop -ltNge; apply: lt_le_trans lt (sorted_nth_le so _ _); rewrite ?leq_addr //.
  by rewrite -ltn_subRL.
by rewrite addn0 (leq_trans (count_size _ _)) // size_take ks.
Qed.
End Sorted.

Lemma size_filter_before (p : pred nat) k j : (j < size (filter p (iota 0 k)))%N ->
  size (filter p (iota 0 (nth 0%N (filter p (iota 0 k)) j))) = j.
Proof.
move=> js; set b := nth _ _ _.
have bk : b \in filter p (iota 0 k) by apply: mem_nth.
have := bk; rewrite mem_filter mem_iota => /andP[pb /andP[_ bl]]; rewrite add0n in bl.
have e : iota 0 k = iota 0 b ++ b :: iota b.+1 (k - b.+1).
  by rewrite -{1}(subnKC bl) addSnnS iotaD add0n /=.
have u : uniq (filter p (iota 0 k)) by rewrite filter_uniq ?iota_uniq.
have i1 : index b (filter p (iota 0 k)) = j by rewrite index_uniq.
rewrite -i1 e filter_cat /= pb index_cat mem_filter mem_iota add0n ltnn andbF /= eqxx addn0.
by rewrite andbF.
Qed.

(* ---- C57 ---- *)
Section Closest.
Variable rnd : F -> int.
Hypothesis rndP : forall x, `|x - (rnd x)%:~R| <= 2^-1.
Variable argsort : (point -> F) -> seq point -> seq point.
Hypothesis argsort_perm : forall key s, perm_eq (argsort key s) s.
Hypothesis argsort_sorted : forall key s, sorted (fun z w => key z <= key w) (argsort key s).
Variables (B : 'M[F]_(N, d)) (v : 'rV[F]_d).
Hypothesis fB : row_free B.
Let x := coordinates B v.
Let c : point := map_mx rnd x.
Let key z := norm (lattice_point B z - x *m B).

Lemma distance_le z w : (norm (lattice_point B z - v) <= norm (lattice_point B w - v)) = (key z <= key w).
Proof.
rewrite !le_norm /key /lattice_point -/x (projection_dist fB (map_mx intr z) v) (projection_dist fB (map_mx intr w) v).
by rewrite ler_add2r.
Qed.
Lemma outside l z : z \notin box c l -> (l.*2.+1)%:R * radius B <= key z.
Proof.
rewrite mem_box negb_forall => /existsP[i]; rewrite -ltNge => lt.
have := coordinate_radius fB (map_mx intr z - x) i; rewrite mulmxBl -/(lattice_point B z) -/(key z).
apply: le_trans; rewrite mulrnAr -mulrnAl ler_wpmul2r ?(ltW (radius_gt0 fB)) //.
have -> : (map_mx intr z - x) 0 i = (z 0 i)%:~R - x 0 i by rewrite mxE [X in X + _]mxE [X in _ + X]mxE.
have r := rndP (x 0 i); have e : (z 0 i)%:~R - x 0 i = (z 0 i - c 0 i)%:~R - (x 0 i - (c 0 i)%:~R) by rewrite rmorphB /= opprB addrA subrK.
have n1 : (l.+1)%:R <= `|(z 0 i - c 0 i)%:~R : F| by rewrite -intr_norm -[l.+1%:R]/(l.+1%:Z%:~R) ler_int; lia.
have {}r : `|x 0 i - (c 0 i)%:~R| <= 2^-1 by rewrite [c 0 i]mxE.
have h : l.+1%:R - 2^-1 <= `|(z 0 i)%:~R - x 0 i|.
  rewrite e; apply: le_trans (ler_sub_dist _ _); exact: ler_sub.
rewrite -[X in X <= _](_ : (l.+1%:R - 2^-1) *+ 2 = _); first by rewrite ler_muln2r h.
rewrite mulrnBl -(mulr_natr 2^-1) mulVf ?pnatr_eq0 // -mulrnA muln2 doubleS mulrSr addrK.
by [].
Qed.
Lemma inside l z : key z < (l.*2.+1)%:R * radius B -> z \in box c l.
Proof. by move=> h; apply/negPn/negP => /outside; rewrite leNgt h. Qed.

Local Notation step := (cvp_step argsort B c (x *m B) (radius B)).
Lemma loop_step n g rtol fuel l r : cvp_loop argsort B c (x *m B) (radius B) n g rtol fuel l = Some r ->
  exists2 l', (l <= l')%N & step n g rtol l' = Some r.
Proof.
elim: fuel l => // fuel IH l /=; case e: (step _ _ _ _) => [q|]; first by move=> [<-]; exists l.
by move=> /IH[l' h1 h2]; exists l' => //; apply: ltnW.
Qed.
Lemma step_loop n g rtol l l' r : (l <= l')%N -> step n g rtol l' = Some r ->
  exists fuel q, cvp_loop argsort B c (x *m B) (radius B) n g rtol fuel l = Some q.
Proof.
move=> ll; rewrite -(subnKC ll) => h; move: (l' - l)%N h => k {ll l'}; elim: k l => [|k IH] l h.
  by exists 1%N, r => /=; rewrite addn0 in h; rewrite h.
case e: (step n g rtol l) => [q|]; first by exists 1%N, q; rewrite /= e.
have [|fuel [q hq]] := IH l.+1; first by rewrite addSnnS.
by exists fuel.+1, q; rewrite /= e.
Qed.
Lemma cvp_unfold n g rtol fuel : cvp rnd argsort fuel v B n g rtol = cvp_loop argsort B c (x *m B) (radius B) n g rtol fuel 1.
Proof. by rewrite /cvp gram_unit. Qed.

Let sorted_box l := argsort key (box c l).
Lemma mem_sorted l : sorted_box l =i box c l. Proof. exact/perm_mem/argsort_perm. Qed.
Lemma uniq_sorted l : uniq (sorted_box l). Proof. by rewrite (perm_uniq (argsort_perm _ _)) uniq_box. Qed.
Lemma size_sorted l : size (sorted_box l) = (l.*2.+1 ^ N)%N. Proof. by rewrite (perm_size (argsort_perm _ _)) size_box. Qed.

(* the n closest points; the first of them comes first *)
Theorem C57_cvp n rtol fuel s : (0 < n)%N -> cvp rnd argsort fuel v B n false rtol = Some (Ok s) ->
  [/\ size s = n, uniq s,
      sorted (fun z w => norm (lattice_point B z - v) <= norm (lattice_point B w - v)) s &
      forall z w, z \in s -> w \notin s -> norm (lattice_point B z - v) <= norm (lattice_point B w - v)].
Proof.
move=> n0; rewrite cvp_unfold => /loop_step[l l0]; rewrite /cvp_step.
case: ltnP => // sn; rewrite -/(sorted_box l) subr0; case: n n0 sn => // n _ sn.
rewrite /at_last; set dn := nth _ _ _; case: ifP => // lt [<-].
have ns : (n < size (sorted_box l))%N by rewrite size_sorted -(size_box c).
have dnE : dn = key (nth 0 (sorted_box l) n) by rewrite /dn (nth_map 0).
have so : sorted (fun z w => key z <= key w) (sorted_box l) := argsort_sorted _ _.
split; first by rewrite size_take; case: (ltnP n.+1 (size (sorted_box l))) => // h; apply/eqP; rewrite eqn_leq h.
- exact/take_uniq/uniq_sorted.
- rewrite (eq_sorted (e' := fun z w => key z <= key w)); last by move=> z w; rewrite distance_le.
  exact: take_sorted.
move=> z w zs ws; rewrite distance_le.
case wb: (w \in sorted_box l).
  apply: (sorted_take 0 so zs); move: wb ws; rewrite -{1}(cat_take_drop n.+1 (sorted_box l)) mem_cat.
  by case/orP => // ->.
have zn : key z <= dn.
  rewrite dnE; move: zs => /(nthP 0)[i] /lt_take ik <-.
  by rewrite nth_take //; apply: sorted_nth_le.
apply: le_trans zn (ltW (lt_le_trans lt _)).
rewrite mem_sorted in wb; apply: le_trans (outside (negbT wb)).
rewrite ler_wpmul2r ?(ltW (radius_gt0 fB)) // ler_subl_addr -mulrSr ler_nat; lia.
Qed.
Theorem C57_ok n rtol fuel r : (0 < n)%N -> cvp rnd argsort fuel v B n false rtol = Some r -> exists s, r = Ok s.
Proof.
move=> n0; rewrite cvp_unfold => /loop_step[l l0]; rewrite /cvp_step; case: ifP => // _; case: ifP => // _ [<-].
by eexists.
Qed.
(* the search ends *)
Theorem C57_terminates n rtol : (0 < n)%N -> exists fuel s, cvp rnd argsort fuel v B n false rtol = Some (Ok s).
Proof.
case: n => // n _.
pose D := \sum_(z <- box c n) key z.
have Db z : z \in box c n -> key z <= D.
  move=> zb; rewrite /D (big_rem z) //= ler_addl; apply: sumr_ge0 => y _; exact: norm_ge0.
pose k := (absz (rnd (D / radius B))).+2.
have kD : D < ((2 * (k + n))%:R - 1 - 0) * radius B.
  rewrite -ltr_pdivr_mulr ?radius_gt0 // subr0.
  have r := rndP (D / radius B).
  have : D / radius B <= (rnd (D / radius B))%:~R + 2^-1.
    by rewrite -ler_subl_addl; apply: le_trans r; apply: ler_norm.
  move=> /le_lt_trans; apply.
  have : ((rnd (D / radius B))%:~R : F) <= (absz (rnd (D / radius B)))%:R by rewrite -[_%:R]/((absz _)%:Z%:~R) ler_int; lia.
  move=> le; apply: (@le_lt_trans _ _ ((absz (rnd (D / radius B)))%:R + 1)).
    by apply: ler_add le _; rewrite invf_le1 ?ltr0n // ler1n.
  rewrite ltr_subr_addr -!mulrSr ltr_nat /k; lia.
have sz : (n.+1 <= size (box c (k + n)))%N.
  rewrite size_box; apply: (@leq_trans (k + n).*2.+1); first lia.
  by rewrite -{1}[_.*2.+1]expn1 leq_exp2l //; lia.
have hn : key (nth 0 (sorted_box (k + n)) n) <= D.
  apply: sorted_rank; first exact: argsort_sorted.
  apply: leq_trans (_ : (size (box c n) <= _)%N).
    rewrite size_box; apply: (@leq_trans n.*2.+1); first lia.
    by case: (n) => [|n']; rewrite ?exp1n // -{1}[_.*2.+1]expn1 leq_exp2l //; lia.
  rewrite -size_filter; apply: uniq_leq_size (uniq_box _ _) _ => z zb; rewrite mem_filter Db //= mem_sorted.
  by apply: sub_box zb; apply: leq_addl.
have [||fuel [q h]] := @step_loop n.+1 false rtol 1 (k + n) (Ok (take n.+1 (sorted_box (k + n)))).
- by rewrite /k; lia.
- rewrite /cvp_step ltnNge sz /= -/(sorted_box (k + n)) (nth_map 0); last by rewrite size_sorted -(size_box c).
  by rewrite (le_lt_trans hn kD).
exists fuel; rewrite cvp_unfold h; move: (h); rewrite -cvp_unfold => /C57_ok[] // s ->.
by exists s.
Qed.
(* with n = 0 the code looks at distances[-1] and never finishes *)
Theorem C57_zero_refuted rtol fuel : cvp rnd argsort fuel v B 0 false rtol = None.
Proof.
rewrite cvp_unfold; case e: (cvp_loop _ _ _ _ _ _ _ _ _ _) => [r|] //; move: e => /loop_step[l l0].
rewrite /cvp_step ltn0 -/(sorted_box l) /at_last; case: ifP => // lt _; exfalso.
(* a point of the box far from vec *)
pose s : int := if x 0 0 <= (c 0 0)%:~R then 1 else -1.
pose z : point := \row_i (if i == 0 then c 0 0 + s * l%:Z else c 0 i).
have zb : z \in box c l.
  rewrite mem_box; apply/forallP => i; rewrite mxE; case: (eqVneq i 0) => [->|_]; rewrite /s; last lia.
  by case: ifP => _; rewrite ?mulN1r ?mul1r addrC addKr; lia.
have far : (l.*2)%:R * radius B <= key z.
  have := coordinate_radius fB (map_mx intr z - x) 0; rewrite mulmxBl -/(lattice_point B z) -/(key z).
  apply: le_trans; rewrite mulrnAr -mulrnAl ler_wpmul2r ?(ltW (radius_gt0 fB)) //.
  rewrite -muln2 natrM mulr_natr ler_muln2r /=.
  have -> : (map_mx intr z - x) 0 0 = (z 0 0)%:~R - x 0 0 by rewrite mxE [X in X + _]mxE [X in _ + X]mxE.
  have -> : z 0 0 = c 0 0 + s * l%:Z by rewrite mxE.
  rewrite rmorphD rmorphM /= /s; case: (leP (x 0 0)) => [h|h].
    by rewrite mul1r (le_trans _ (ler_norm _)) // -addrA addrCA ler_addl subr_ge0.
  by rewrite -normrN opprB (le_trans _ (ler_norm _)) // mulN1r opprD opprK addrA addrC ler_addl subr_ge0 ltW.
have zl : key z <= last 0 [seq key z0 | z0 <- sorted_box l].
  have := zb; rewrite -mem_sorted => /(nthP 0)[i il <-].
  rewrite (last_map _ _ 0) || idtac.
  rewrite -nth_last size_map (nth_map 0); last by move: il; case: (size _).
  apply: sorted_nth_le; [exact: argsort_sorted | by move: il; case: (size _) | by move: il; case: (size _)].
move: lt; rewrite ltNge; apply/negP; rewrite negbK; apply: le_trans zl; apply: le_trans far.
rewrite ler_wpmul2r ?(ltW (radius_gt0 fB)) // subr0 mul2n ler_subl_addr ler_addl ler01.
by [].
Qed.
(* all points within the n shortest distances, measured from the projection of vec onto the span of the basis *)
Theorem C57_group n rtol fuel s : (0 < n)%N -> cvp rnd argsort fuel v B n true rtol = Some (Ok s) ->
  [/\ uniq s,
      sorted (fun z w => key z <= key w) s,
      size [seq i <- iota 0 (size s).-1 | rtol * radius B < key (nth 0 s i.+1) - key (nth 0 s i)] = n.-1 &
      forall z w, z \in s -> w \notin s -> key z + rtol * radius B < key w].
Proof.
move=> n0; rewrite cvp_unfold => /loop_step[l l0]; rewrite /cvp_step.
case: ltnP => // sn; rewrite -/(sorted_box l).
have so : sorted (fun z w => key z <= key w) (sorted_box l) := argsort_sorted _ _.
set ds := [seq _ | _ <- sorted_box l].
have dsE i : (i < size (sorted_box l))%N -> ds`_i = key (nth 0 (sorted_box l) i) by move=> h; rewrite /ds (nth_map 0).
have sds : size ds = size (sorted_box l) by rewrite size_map.
have s0 : (0 < size (sorted_box l))%N by rewrite size_sorted expn_gt0.
set bs := [seq _ <- _ | _]; case: ifP => // bn.
have out w dn : dn < ((2 * l)%:R - 1 - rtol) * radius B -> w \notin sorted_box l -> dn + rtol * radius B < key w.
  move=> lt; rewrite mem_sorted => wb; apply: lt_le_trans (outside wb).
  rewrite -ltr_subr_addr; apply: lt_le_trans lt _; rewrite -mulrBl.
  rewrite ler_wpmul2r ?(ltW (radius_gt0 fB)) // ler_sub // ler_subl_addr -mulrSr ler_nat; lia.
case: eqP => [bE|bE].
  case: ifP => // lt [<-]; split => //; first exact: uniq_sorted.
    rewrite -bE /= /bs sds; congr size; apply: eq_in_filter => i; rewrite mem_iota add0n => /andP[_ h].
    by rewrite !dsE //; move: h s0; case: (size _) => //=; lia.
  move=> z w zs ws; apply: le_lt_trans (out w _ lt ws); rewrite ler_add2r.
  move: zs => /(nthP 0)[i il <-]; rewrite -nth_last sds dsE; last by rewrite prednK.
  have e := prednK s0; apply: sorted_nth_le => //; last by rewrite e.
  by rewrite -ltnS e.
case ebs: bs => [|b0 bs'] //; rewrite -ebs; case: ifP => // lt [<-].
case: n n0 sn bn bE lt => // n _ sn bn bE lt; rewrite /= in bn bE lt *.
have nb : (n < size bs)%N by move: bn bE; rewrite ltnS; lia.
set b := nth 0%N bs n in lt *.
have : b \in bs by apply: mem_nth.
rewrite mem_filter mem_iota add0n sds => /andP[gap /andP[_ bl]].
have bl' : (b.+1 < size (sorted_box l))%N by move: bl s0; case: (size _) => //=; lia.
have st : size (take b.+1 (sorted_box l)) = b.+1 by rewrite size_take bl'.
split; first exact/take_uniq/uniq_sorted.
- exact: take_sorted.
- rewrite st /=; rewrite -[RHS](size_filter_before nb) -/bs -/b; congr size.
  apply: eq_in_filter => i; rewrite mem_iota add0n => /andP[_ h].
  have i1 : (i.+1 < size (sorted_box l))%N by apply: ltn_trans bl'; rewrite ltnS.
  have i2 : (i < b.+1)%N by apply: ltnW.
  by rewrite !nth_take ?dsE //; apply: ltnW.
move=> z w zs ws.
have zn : key z <= ds`_b.
  rewrite (dsE _ (ltnW bl')); move: zs => /(nthP 0)[i]; rewrite st => il <-.
  by rewrite nth_take //; apply: sorted_nth_le => //; apply: (ltnW bl').
case wb: (w \in sorted_box l); last first.
  by apply: le_lt_trans (out w _ lt (negbT wb)); rewrite ler_add2r.
have wd : w \in drop b.+1 (sorted_box l).
  by move: wb ws; rewrite -{1}(cat_take_drop b.+1 (sorted_box l)) mem_cat; case/orP => // ->.
have : ds`_b.+1 <= key w.
  rewrite dsE //; move: wd => /(nthP 0)[j]; rewrite size_drop => jl <-; rewrite nth_drop.
  by apply: sorted_nth_le => //; [apply: leq_addr | rewrite -ltn_subRL].
apply: lt_le_trans; rewrite ltr_subr_addl in gap; apply: le_lt_trans gap; by rewrite ler_add2r.
Qed.
End Closest.
(* dependent vectors: la.inv fails *)
Theorem C57_dependent (rnd : F -> int) argsort fuel (v : 'rV[F]_d) B n g rtol : ~~ row_free B ->
  cvp rnd argsort fuel v B n g rtol = Some (Err LinAlgError).
Proof.
move=> nf; rewrite /cvp ifT //; apply/negP => u; move/negP: nf; apply.
by rewrite /row_free eqn_leq rank_leq_row; have := mxrankM_maxl B B^T; rewrite mxrank_unit.
Qed.
End CVP.

(* non-trivial case: the lattice point closest to (0.3, 0.8) in the square lattice is (0, 1) *)
Section Example.
Variable F : rcfType.
Variable rnd : F -> int.
Hypothesis rndP : forall x, `|x - (rnd x)%:~R| <= 2^-1.
Variable argsort : ('rV[int]_2 -> F) -> seq 'rV[int]_2 -> seq 'rV[int]_2.
Hypothesis argsort_perm : forall key s, perm_eq (argsort key s) s.
Hypothesis argsort_sorted : forall key s, sorted (fun z w => key z <= key w) (argsort key s).
Let v : 'rV[F]_2 := \row_i (if i == 0 then 3%:R / 10%:R else 8%:R / 10%:R).
Let z1 : 'rV[int]_2 := \row_i (if i == 0 then 0 else 1).
Lemma square_dist (z : 'rV[int]_2) : dot (lattice_point 1%:M z - v) (lattice_point 1%:M z - v) =
  ((z 0 0 * 10%:Z - 3%:Z) ^+ 2 + (z 0 1 * 10%:Z - 8%:Z) ^+ 2)%:~R / 100%:R.
Proof.
have t (a b : int) : (a%:~R - b%:~R / 10%:R : F) ^+ 2 = ((a * 10%:Z - b) ^+ 2)%:~R / 100%:R.
  have -> : (100%:R : F) = 10%:R ^+ 2 by rewrite expr2 -natrM.
  have -> : a%:~R = (a * 10%:Z)%:~R / 10%:R :> F by rewrite intrM mulfK ?pnatr_eq0.
  by rewrite -mulrBl expr_div_n rmorphX rmorphB.
rewrite rmorphD mulrDl -!t /dot 2!big_ord_recl big_ord0 addr0 !expr2 /lattice_point mulmx1 !mxE /=.
by rewrite (_ : lift 0 0 = 1) //; apply: val_inj.
Qed.
Example C57_example : exists fuel, cvp rnd argsort fuel v 1%:M 1 false 0 = Some (Ok [:: z1]).
Proof.
have fB : row_free (1%:M : 'M[F]_2) by rewrite row_free_unit unitmx1.
have [fuel [s h]] := C57_terminates rndP argsort_perm argsort_sorted v fB 0 (isT : (0 < 1)%N).
exists fuel; rewrite h; have [ss _ _ cl] := C57_cvp rndP argsort_perm argsort_sorted fB (isT : (0 < 1)%N) h.
case: s ss cl {h} => [|z [|]] // _ cl; congr (Some (Ok [:: _])); apply/eqP/negPn/negP => ne.
have := cl z z1; rewrite !inE eqxx eq_sym => /(_ isT ne).
rewrite le_norm !square_dist ler_pmul2r ?invr_gt0 ?ltr0n // ler_int !mxE /= mul0r add0r mul1r => le.
move/eqP: ne; apply; apply/rowP => i; rewrite mxE.
have [a0 b1] : z 0 0 = 0 /\ z 0 1 = 1.
  move: (z 0 0) (z 0 1) le => a b; have -> : (- 3%:Z) ^+ 2 + (10%:Z - 8%:Z) ^+ 2 = 13%:Z by [].
  have sq (k : int) : 0 <= k ^+ 2 by apply: sqr_ge0.
  have bd (k : int) : k ^+ 2 <= 13%:Z -> -3%:Z <= k /\ k <= 3%:Z by rewrite expr2 => h; split; nia.
  move=> le; have [h1 h2] : -3%:Z <= a * 10%:Z - 3%:Z /\ a * 10%:Z - 3%:Z <= 3%:Z by apply: bd; have := sq (b * 10%:Z - 8%:Z); lia.
  have [h3 h4] : -3%:Z <= b * 10%:Z - 8%:Z /\ b * 10%:Z - 8%:Z <= 3%:Z by apply: bd; have := sq (a * 10%:Z - 3%:Z); lia.
  by split; lia.
by case: i => [[|[|]]] //= k; [rewrite -[RHS]a0 | rewrite -[RHS]b1]; congr (z _ _); apply: val_inj.
Qed.
End Example.

(* with a large tolerance all distances form a single group and the search never ends: the chain of integers *)
Section Chain.
Variable F : rcfType.
Variable rnd : F -> int.
Hypothesis rndP : forall x, `|x - (rnd x)%:~R| <= 2^-1.
Variable argsort : ('rV[int]_1 -> F) -> seq 'rV[int]_1 -> seq 'rV[int]_1.
Hypothesis argsort_perm : forall key s, perm_eq (argsort key s) s.
Hypothesis argsort_sorted : forall key s, sorted (fun z w => key z <= key w) (argsort key s).
Lemma chain_radius : radius (1%:M : 'M[F]_1) = 2^-1.
Proof. by rewrite /radius /max_diag big_ord_recl big_ord0 trmx1 mulmx1 invmx1 mxE /= maxEge ler01 sqrtr1 divr1. Qed.
Lemma chain_key (z : 'rV[int]_1) : norm (lattice_point (1%:M : 'M[F]_1) z - coordinates 1%:M 0 *m 1%:M) = (absz (z 0 0))%:R.
Proof.
rewrite /coordinates !mul0mx subr0 /norm /dot big_ord_recl big_ord0 addr0 /lattice_point mulmx1 mxE -expr2 sqrtr_sqr.
by rewrite -intr_norm.
Qed.
Theorem C57_group_loops_refuted n rtol fuel : 2%:R <= rtol -> cvp rnd argsort fuel 0 (1%:M : 'M[F]_1) n.+1 true rtol = None.
Proof.
move=> r2; have fB : row_free (1%:M : 'M[F]_1) by rewrite row_free_unit unitmx1.
rewrite cvp_unfold //; case e: (cvp_loop _ _ _ _ _ _ _ _ _ _) => [r|] //; move: e => /loop_step[l l0].
rewrite /cvp_step; case: ifP => // _; set c := map_mx _ _; set key := fun z : 'rV[int]_1 => norm _.
set s := argsort key (box c l); set ds := [seq _ | _ <- s]; set bs := [seq _ <- _ | _].
have c0 : c 0 0 = 0.
  rewrite mxE /coordinates !mul0mx mxE; have := rndP 0; rewrite sub0r normrN -intr_norm => h.
  have : (`|rnd 0|%:~R : F) < 1%:~R by apply: le_lt_trans h _; rewrite invf_lt1 ?ltr0n // ltr1n.
  by rewrite ltr_int; case: (rnd 0) => [[|a]|a] //; lia.
have keyE z : key z = (absz (z 0 0))%:R by rewrite -chain_key.
have mem z : (z \in s) = (absz (z 0%R 0%R) <= l)%N.
  rewrite (perm_mem (argsort_perm _ _)) mem_box; apply/forallP/idP => [/(_ 0)|h i]; first by rewrite c0 subr0 -abszE lez_nat.
  by rewrite (ord1 i) c0 subr0 -abszE lez_nat.
have so : sorted (fun z w => key z <= key w) s := argsort_sorted _ _.
have s0 : (0 < size s)%N by rewrite (perm_size (argsort_perm _ _)) size_box expn_gt0.
have dsE i : (i < size s)%N -> ds`_i = (absz (nth 0 s i 0 0))%:R by move=> h; rewrite /ds (nth_map 0) // -keyE.
have bs0 : bs = [::].
  apply/eqP; rewrite -[_ == _]negbK -has_filter; apply/hasPn => i; rewrite mem_iota add0n size_map => /andP[_ h].
  have i1 : (i.+1 < size s)%N by move: h s0; case: (size s) => //=; lia.
  rewrite -leNgt chain_radius !dsE //; last exact: ltnW.
  apply: (@le_trans _ _ 1); last by rewrite ler_pdivl_mulr ?ltr0n // mul1r.
  rewrite ler_subl_addl -[_ + 1]mulrSr ler_nat leqNgt; apply/negP => lt.
  set a := absz _ in lt; pose w : 'rV[int]_1 := \row__ (a.+1)%:Z.
  have wk : key w = a.+1%:R by rewrite keyE mxE.
  have : w \in s.
    rewrite mem mxE /=; apply: leq_trans (ltnW lt) _.
    by rewrite -mem mem_nth.
  move=> /(nthP 0)[j js jw].
  have [ji|ij] := leqP j i.
    have := sorted_nth_le 0 so ji (ltnW i1); rewrite jw wk keyE -/a ler_nat; lia.
  have := sorted_nth_le 0 so ij js; rewrite jw wk keyE ler_nat.
  by rewrite leqNgt lt.
rewrite bs0; case: (n) => [|n'] //=; case: ifP => // lt _; exfalso; move: lt; apply/negP; rewrite -leNgt.
have : (\row__ l%:Z : 'rV[int]_1) \in s by rewrite mem mxE.
move=> /(nthP 0)[j js jw]; apply: (@le_trans _ _ l%:R).
  rewrite chain_radius ler_pdivr_mulr ?ltr0n // -natrM mulnC ler_subl_addr ler_subl_addr.
  by rewrite -addrA ler_addl addr_ge0 ?ler01 // (le_trans _ r2) ?ler0n.
rewrite -nth_last size_map (nth_map 0) ?prednK //.
have e := prednK s0; have := @sorted_nth_le F _ 0 key s j (size s).-1 so; rewrite e jw.
rewrite [key (\row__ _)]keyE mxE; apply=> //; by rewrite -ltnS e.
Qed.
End Chain.
Print Assumptions C57_cvp.
Print Assumptions C57_terminates.
Print Assumptions C57_group.
Print Assumptions C57_zero_refuted.
Print Assumptions C57_group_loops_refuted.
Print Assumptions C57_example.
