(* C09, C10, C11: order, hash and equality of point group elements. *)
From mathcomp Require Import all_ssreflect all_algebra.
From Verif Require Import Prelude RealLemmas Tolerance PropTol PGERep.

Set Implicit Arguments.
Unset Strict Implicit.
Unset Printing Implicit Defensive.
Import Order.Theory GRing.Theory Num.Theory.
Local Open Scope ring_scope.

Section Rep.
Variables (F : realFieldType) (E : eqType) (fl : E -> F) (rnd : F -> int) (rtol atol : F) (n : nat).
Local Notation elt := (elt F E n).
Local Notation rep := (rep F E n).
Local Notation lt := (@elt_lt F E fl n).
Local Notation eq := (elt_eq fl rtol atol).
Local Notation afl := (as_float fl).
Implicit Types g h k : elt.

(* ---- C09 ---- *)
Lemma lexlt_irr (s : seq F) : lexlt s s = false :> bool.
Proof. by elim: s => //= x s ->; rewrite ltxx eqxx. Qed.
Lemma lexlt_trans (s t u : seq F) : lexlt s t -> lexlt t u -> lexlt s u.
Proof.
elim: s t u => [|x s IH] [|y t] [|z u] //= /orP[xy|/andP[/eqP -> st]] /orP[yz|/andP[/eqP yz tu]].
- by rewrite (lt_trans xy yz).
- by rewrite -yz xy.
- by rewrite yz.
- by rewrite yz eqxx (IH t u st tu) orbT.
Qed.
Lemma lexlt_total (s t : seq F) : size s = size t -> [|| lexlt s t, s == t | lexlt t s].
Proof.
elim: s t => [|x s IH] [|y t] //= [/IH H]; rewrite eqseq_cons.
by case: (ltgtP x y) => //= _; rewrite ?orbT.
Qed.

Lemma size_entries (A : 'M[F]_n) : size (entries A) = (n * n)%N.
Proof. by rewrite size_allpairs -!cardE card_ord. Qed.
Lemma entries_inj : injective (@entries F n).
Proof.
move=> A B H; apply/matrixP => i j.
have h (M : 'M[F]_n) : M i j = nth 0 [seq M i j | j <- enum 'I_n] j.
  by rewrite (nth_map j) ?nth_ord_enum // size_enum_ord.
have g (M : 'M[F]_n) (s : seq 'I_n) l : (l < size s)%N ->
   [seq M (nth i s l) j | j <- enum 'I_n] = take n (drop (l * n) [seq M i j | i <- s, j <- enum 'I_n]).
  elim: s l => //= a s IH [|l] hl.
    by rewrite mul0n drop0 take_cat size_map size_enum_ord ltnn subnn take0 cats0.
  rewrite IH // mulSn drop_cat size_map size_enum_ord.
  by rewrite ltnNge leq_addr /= addKn.
rewrite !h; congr nth.
have li : (i < size (enum 'I_n))%N by rewrite size_enum_ord.
by have := g A _ i li; have := g B _ i li; rewrite nth_ord_enum -/(entries A) -/(entries B) H => -> ->.
Qed.

Lemma flag_lt_irr f : flag_lt f f = false.
Proof. by case: f => [[] []]. Qed.

Theorem C09_irreflexive g : ~~ lt g g.
Proof. by rewrite /elt_lt eqxx /= addbb lexlt_irr. Qed.

Theorem C09_transitive g h k : lt g h -> lt h k -> lt g k.
Proof.
case: g h k => [r1 c1 a1] [r2 c2 a2] [r3 c3 a3]; rewrite /elt_lt /=.
case: (altP ((c1, a1) =P (c2, a2))) => [[-> ->]|n12]; case: (altP ((c2, a2) =P (c3, a3))) => [[ec ea]|n23]; try (subst; rewrite ?eqxx /=).
- case: (afl r1 =P 1%:M) => h1; case: (afl r2 =P 1%:M) => h2; case: (afl r3 =P 1%:M) => h3 //=.
  + exact: lexlt_trans.
  + exact: lexlt_trans.
- by [].
- by rewrite n12.
- by case: c1 a1 c2 a2 c3 a3 n12 n23 => [] [] [] [] [] [].
Qed.

Theorem C09_total g h : (afl (eR g), econj g, eanti g) <> (afl (eR h), econj h, eanti h) ->
  lt g h \/ lt h g.
Proof.
case: g h => [r1 c1 a1] [r2 c2 a2]; rewrite /elt_lt /= => ne.
case: (altP ((c1, a1) =P (c2, a2))) => [[ec ea]|n12]; last first.
  by rewrite [_ == (c1, a1)]eq_sym n12; case: c1 a1 c2 a2 n12 {ne} => [] [] [] []; rewrite /flag_lt /=; auto.
subst; rewrite eqxx /=; have nr : afl r1 != afl r2 by apply/eqP => E'; case: ne; rewrite E'.
case: (afl r1 =P 1%:M); case: (afl r2 =P 1%:M) => //= h2 h1; auto.
  by rewrite h1 h2 eqxx in nr.
have := @lexlt_total (entries (afl r1)) (entries (afl r2)); rewrite !size_entries => /(_ erefl).
by rewrite (inj_eq entries_inj) (negPf nr) => /orP.
Qed.

(* elements with R = 1 come first among those with the same flags *)
Theorem C09_identity_R_first g h : afl (eR g) = 1%:M -> afl (eR h) <> 1%:M ->
  econj g = econj h -> eanti g = eanti h -> lt g h.
Proof. by move=> e1 /eqP /negPf e2 ec ea; rewrite /elt_lt ec ea eqxx e1 e2 eqxx. Qed.

(* the identity is the smallest element *)
Theorem C09_identity_minimal h :
  (afl (eR h), econj h, eanti h) <> (1%:M, false, false) ->
  lt (Elt (RInt F E 1%:M) false false) h.
Proof.
case: h => r c a /= ne; rewrite /elt_lt /= map_mx1 eqxx.
case: (altP ((false, false) =P (c, a))) => [[ec ea]|]; last by case: c a {ne} => [] [].
subst; case: eqP => //= e; by case: ne; rewrite e.
Qed.

(* sorting is deterministic: two sorted arrangements of the same elements agree *)
Theorem C09_sorting_unique (s t : seq elt) :
  (forall g, List.In g s <-> List.In g t) ->
  sorted lt s -> sorted lt t -> s = t.
Proof.
have tr : transitive lt by move=> b a c; apply: C09_transitive.
have mn a u : path lt a u -> forall x, List.In x u -> lt a x.
  by move=> /(order_path_min tr) /allIn.
elim: s t => [|a s IH] [|b t] H //= ps pt.
- by case: (proj2 (H b)) => //; left.
- by case: (proj1 (H a)) => //; left.
have eab : a = b.
  case: (proj1 (H a) (or_introl erefl)) => [//|at_].
  case: (proj2 (H b) (or_introl erefl)) => [//|bs].
  have := C09_irreflexive a; by rewrite (C09_transitive (mn _ _ ps _ bs) (mn _ _ pt _ at_)).
subst b; congr (_ :: _); apply: IH; last 2 first.
- exact: path_sorted ps.
- exact: path_sorted pt.
move=> g; split=> hg.
- case: (proj1 (H g) (or_intror hg)) => // E'; subst g.
  by have := C09_irreflexive a; rewrite (mn _ _ ps _ hg).
- case: (proj2 (H g) (or_intror hg)) => // E'; subst g.
  by have := C09_irreflexive a; rewrite (mn _ _ pt _ hg).
Qed.

(* ---- C10 ---- *)
Local Notation close := (aclose (fun x : F => `|x|) rtol atol).
(* np.round is accurate to 1/2 *)
Hypothesis rndP : forall x, `|(rnd x)%:~R - x| <= 1 / 2%:R.

Lemma rnd_near (x : F) (k : int) : `|x - k%:~R| < 1 / 2%:R -> rnd x = k.
Proof.
move=> h; have : `|(rnd x - k)%:~R| < 1 :> F.
  rewrite rmorphB /= -[(rnd x)%:~R](subrK x) -[_ + x - _]addrA; apply: le_lt_trans (ler_norm_add _ _) _.
  have e1 : 1 / 2%:R + 1 / 2%:R = 1 :> F by rewrite -mulrDl -(natrD _ 1 1) divff ?pnatr_eq0.
  by rewrite -[X in _ < X]e1 ler_lt_add.
rewrite -intr_norm -[1]/(1%:~R) ltr_int => h1; apply/eqP; rewrite -subr_eq0 -normr_eq0.
by move: h1; case: (rnd x - k) => [[|m]|m].
Qed.

(* tolerances small compared to the distance of integers *)
Definition moderate (r : rep) : Prop := atol + rtol * amax (fun x : F => `|x|) (afl r) < 1 / 2%:R.

Definition is_float_rep (r : rep) := if r is RFlt _ then true else false.
Definition is_sympy_rep (r : rep) := if r is RSym _ then true else false.

(* a constructed element whose R is close to an integer matrix is stored as integers *)
Lemma close_to_int_is_int r A : moderate r -> moderate (RInt F E A) ->
  close (afl r) (map_mx intr A) -> make_int fl rnd rtol atol r = RInt F E A.
Proof.
move=> m1 m2 /C54_allclose_iff H.
have E1 : map_mx rnd (afl r) = A.
  apply/matrixP => i j; rewrite mxE; apply: rnd_near; have := H i j; rewrite [X in _ - X]mxE => h.
  by apply: le_lt_trans h _; rewrite /Num.max; case: ifP => _; [exact: m2 | exact: m1].
rewrite /make_int E1; case: ifP => // /negP []; apply/C54_allclose_iff; exact: H.
Qed.

Theorem C10_equal_elements_hash_equal_partial g h :
  (eR g = init_R fl rnd rtol atol (eR g)) -> (eR h = init_R fl rnd rtol atol (eR h)) ->
  moderate (eR g) -> moderate (eR h) ->
  ~~ (is_float_rep (eR g) && is_sympy_rep (eR h)) -> ~~ (is_sympy_rep (eR g) && is_float_rep (eR h)) ->
  eq g h -> hash_key g = hash_key h.
Proof.
case: g h => [r1 c1 a1] [r2 c2 a2] /= i1 i2 m1 m2 n1 n2 /andP[/= e1 /eqP [-> ->]]; rewrite /hash_key /=.
congr (_, _).
case: r1 r2 i1 i2 m1 m2 n1 n2 e1 => [A|A|A] [B|B|B] //= i1 i2 m1 m2 _ _.
- by move/eqP => ->.
- rewrite C54_allclose_sym ?is_norm_real //; last exact: is_norm_real.
  by move/(close_to_int_is_int m2 m1); rewrite -i2.
- rewrite C54_allclose_sym; last exact: is_norm_real.
  by move/(@close_to_int_is_int (RSym F B) A m2 m1); rewrite -i2.
- by move/(close_to_int_is_int m1 m2); rewrite -i1.
- by move/(@close_to_int_is_int (RSym F A) B m1 m2); rewrite -i1.
- by move/eqP => ->.
Qed.

(* ---- C11 ---- *)
Hypothesis r0 : 0 <= rtol.
Hypothesis a0 : 0 <= atol.
Theorem C11_reflexive g : eq g g.
Proof.
rewrite /elt_eq eqxx andbT /rep_eq; case: (eR g) => A //=.
by apply: C54_allclose_refl => //; apply: is_norm_real.
Qed.
Theorem C11_symmetric g h : eq g h = eq h g.
Proof.
rewrite /elt_eq [(econj g, _) == _]eq_sym; congr (_ && _); rewrite /rep_eq.
have N := is_norm_real F.
by case: (eR g) => A; case: (eR h) => B //=; first [exact: (C54_allclose_sym N) | exact: eq_sym].
Qed.
(* transitive among exactly represented elements of one kind *)
Theorem C11_transitive_exact_partial g h k :
  [/\ ~~ is_sympy_rep (eR g) & ~~ is_float_rep (eR g)] ->
  [/\ ~~ is_sympy_rep (eR h) & ~~ is_float_rep (eR h)] ->
  [/\ ~~ is_sympy_rep (eR k) & ~~ is_float_rep (eR k)] ->
  eq g h -> eq h k -> eq g k.
Proof.
case: g h k => [[A|A|A] c1 a1] [[B|B|B] c2 a2] [[D|D|D] c3 a3] //= [] // _ _ [] // _ _ [] // _ _.
by rewrite /elt_eq /= => /andP[/eqP -> /eqP ->].
Qed.
End Rep.

(* C10 is false: a rotation given by a sympy matrix equals the same rotation given in
   floating point, but the hashed tuples differ.  Witness: the rational rotation by
   arccos(3/5); sympy expressions are represented by their exact values. *)
Definition rot345 : 'M[rat]_2 := \matrix_(i, j)
  (if i == j then 3%:R / 5%:R else if i == 0 then - (4%:R / 5%:R) else 4%:R / 5%:R).

Lemma rot345_orthogonal : rot345 *m rot345^T = 1%:M.
Proof.
apply/matrixP => i j; rewrite !mxE !big_ord_recl big_ord0 !mxE.
by case: i => [[|[|//]] ?]; case: j => [[|[|//]] ?]; rewrite /=; apply/eqP; vm_compute.
Qed.

Lemma amax_le (F : realFieldType) m n (A : 'M[F]_(m, n)) b : 0 <= b ->
  (forall i j, `|A i j| <= b) -> amax (fun x : F => `|x|) A <= b.
Proof. by move=> b0 h; case: (amax_attained (fun x : F => `|x|) A) => [-> //|[i [j ->]]]. Qed.

Section Witness.
Variables (rnd : rat -> int) (rtol atol : rat).
Hypothesis rndP : forall x, `|(rnd x)%:~R - x| <= 1 / 2%:R.
Hypothesis r01 : 0 <= rtol <= 1 / 10%:R.
Hypothesis a01 : 0 <= atol <= 1 / 10%:R.

Lemma rot345_not_int : aclose (fun x : rat => `|x|) rtol atol rot345 (map_mx intr (map_mx rnd rot345)) = false.
Proof.
case/andP: r01 => r0 r1; case/andP: a01 => a0 a1.
have e1 : rnd (3%:R / 5%:R) = 1 by apply: (rnd_near rndP).
have e2 : rnd (4%:R / 5%:R) = 1 by apply: (rnd_near rndP).
have e3 : rnd (- (4%:R / 5%:R)) = -1 by apply: (rnd_near rndP).
apply/negP => /C54_allclose_iff /(_ 0 0); apply/negP; rewrite -ltNge.
apply: le_lt_trans (_ : 1 / 10%:R + 1 / 10%:R * 1 < _); last by rewrite !mxE eqxx e1.
have m0 : 0 <= Num.max (amax (fun x : rat => `|x|) rot345) (amax (fun x : rat => `|x|) (map_mx intr (map_mx rnd rot345))).
  by rewrite le_maxr amax_ge0.
rewrite ler_add //; apply: ler_pmul => //; rewrite le_maxl !amax_le //.
  by move=> i j; rewrite !mxE; case: (i == j); [rewrite e1 | case: (i == 0); rewrite ?e2 ?e3].
by move=> i j; rewrite !mxE; case: (i == j); [|case: (i == 0)].
Qed.

Let g := Elt (init_R id rnd rtol atol (RSym rat_realFieldType (rot345 : 'M[rat_eqType]_2))) false false.
Let h := Elt (init_R id rnd rtol atol (RFlt rat_eqType rot345)) false false.
Theorem C10_hash_refuted : elt_eq id rtol atol g h /\ hash_key g <> hash_key h.
Proof.
have Eg : eR g = RSym rat_realFieldType (rot345 : 'M[rat_eqType]_2).
  have E : map_mx id rot345 = rot345 by apply/matrixP => i j; rewrite mxE.
  by rewrite /g /= /make_int /= E rot345_not_int.
have Eh : eR h = RFlt rat_eqType rot345 by rewrite /h /= /make_int /= rot345_not_int.
rewrite /elt_eq Eg Eh /= /hash_key Eg Eh; split=> //.
have E : map_mx id rot345 = rot345 by apply/matrixP => i j; rewrite mxE.
case/andP: r01 => r0 r1; case/andP: a01 => a0 a1.
by rewrite E andbT; apply: C54_allclose_refl => //; apply: is_norm_real.
Qed.
End Witness.

(* C11 is false: floating point R are compared with a tolerance.  For all small
   tolerances with atol > 0 (the defaults are rtol = 1e-5, atol = 1e-8) there are
   constructed elements with g == h == k but g != k. *)
Section Transitivity.
Variables (F : realFieldType) (E : eqType) (fl : E -> F) (rnd : F -> int) (rtol atol : F).
Hypothesis rndP : forall x, `|(rnd x)%:~R - x| <= 1 / 2%:R.
Hypothesis r01 : 0 <= rtol <= 1 / 20%:R.
Hypothesis a01 : 0 < atol <= 1 / 20%:R.
Local Notation mk w := (Elt (init_R fl rnd rtol atol (RFlt E (w%:M : 'M[F]_1))) false false).

(* fractions of 20 *)
Let q (k : nat) : F := k%:R / 20%:R.
Let qD a b : q a + q b = q (a + b). Proof. by rewrite /q natrD mulrDl. Qed.
Let q_le a b : (q a <= q b) = (a <= b)%N.
Proof. by rewrite /q ler_pmul2r ?invr_gt0 ?ltr0n // ler_nat. Qed.
Let q20 : q 20 = 1. Proof. by rewrite /q divff ?pnatr_eq0. Qed.
Let q10 : q 10 = 1 / 2%:R.
Proof. by apply/eqP; rewrite /q eqr_div ?pnatr_eq0 // -natrM mul1r. Qed.

Lemma not_int w : q 10 <= w <= q 14 -> init_R fl rnd rtol atol (RFlt E (w%:M : 'M[F]_1)) = RFlt E w%:M.
Proof.
case/andP=> w1 w2; rewrite /= /make_int /=; case: ifP => //.
have -> : map_mx intr (map_mx rnd (w%:M : 'M_1)) = ((rnd w)%:~R)%:M :> 'M[F]_1.
  by apply/matrixP => i j; rewrite !mxE !ord1 eqxx !mulr1n.
rewrite aclose1 => h.
have w0 : 0 <= w by apply: le_trans w1; rewrite divr_ge0 ?ler0n.
have k1 : `|(rnd w)%:~R| <= q 24 :> F.
  rewrite -[(rnd w)%:~R](subrK w); apply: le_trans (ler_norm_add _ _) _.
  by rewrite -(qD 10 14) ler_add // ?q10 // ger0_norm.
case/andP: r01 => r0 r1; case/andP: a01 => a0 a1.
have t : atol + rtol * Num.max `|w| `|(rnd w)%:~R| <= q 4.
  rewrite -(qD 1 3) ler_add //; apply: le_trans (_ : q 1 * q 24 <= _).
    apply: ler_pmul => //; first by rewrite le_maxr normr_ge0.
    rewrite le_maxl k1 ger0_norm // andbT; apply: le_trans w2 _; by rewrite q_le.
  rewrite /q mulrA ler_pmul2r ?invr_gt0 ?ltr0n // mulrAC mul1r ler_pdivr_mulr ?ltr0n //.
  by rewrite -natrM ler_nat.
exfalso; move: (le_trans h t); apply/negP; rewrite -ltNge.
case: (ltrP 0 (rnd w)) => [k0|k0].
- have : (1 : F) <= (rnd w)%:~R by rewrite -[1]/(1%:~R) ler_int.
  rewrite -q20 -normrN opprB => h1; apply: lt_le_trans (ler_norm _).
  apply: lt_le_trans (_ : q 20 - q 14 <= _); last by rewrite ler_sub.
  by rewrite ltr_subr_addr qD /q ltr_pmul2r ?invr_gt0 ?ltr0n // ltr_nat.
- have : ((rnd w)%:~R : F) <= 0 by rewrite -[0]/(0%:~R) ler_int.
  move=> h1; apply: lt_le_trans (ler_norm _).
  apply: lt_le_trans (_ : q 10 - 0 <= _); last by rewrite ler_sub.
  by rewrite subr0 /q ltr_pmul2r ?invr_gt0 ?ltr0n // ltr_nat.
Qed.

Theorem C11_tolerance_transitive_refuted : exists x y z : F,
  [/\ elt_eq fl rtol atol (mk x) (mk y), elt_eq fl rtol atol (mk y) (mk z) & ~~ elt_eq fl rtol atol (mk x) (mk z)].
Proof.
case/andP: r01 => r0 r1; case/andP: a01 => a0 a1.
pose t := atol + rtol * q 10.
have q0 k : 0 <= q k by rewrite divr_ge0 ?ler0n.
have t0 : 0 < t by rewrite ltr_paddr // mulr_ge0.
have t2 : t <= q 2.
  rewrite -(qD 1 1) ler_add //; apply: le_trans (_ : q 1 * 1 <= _); last by rewrite mulr1.
  by apply: ler_pmul => //; rewrite -q20 q_le.
exists (q 10), (q 10 + t), (q 10 + t + t).
have i1 : q 10 <= q 10 <= q 14 by rewrite lexx q_le.
have i2 : q 10 <= q 10 + t <= q 14.
  by rewrite ler_addl (ltW t0) /= -(qD 10 4) ler_add2l; apply: le_trans t2 _; rewrite q_le.
have i3 : q 10 <= q 10 + t + t <= q 14.
  by rewrite -addrA ler_addl addr_ge0 ?(ltW t0) //= -(qD 10 4) ler_add2l -(qD 2 2) ler_add.
have p1 : 0 <= q 10 + t by rewrite addr_ge0 // ltW.
have p2 : 0 <= q 10 + t + t by rewrite addr_ge0 // ltW.
rewrite !not_int // /elt_eq /= !eqxx !andbT !aclose1.
have d1 : q 10 - (q 10 + t) = - t by rewrite opprD addrA subrr add0r.
have d2 : q 10 + t - (q 10 + t + t) = - t by rewrite opprD addrA subrr add0r.
have d3 : q 10 - (q 10 + t + t) = - (t + t) by rewrite -addrA opprD addrA subrr add0r.
have t00 : 0 <= t := ltW t0.
have tt0 : 0 <= t + t by apply: addr_ge0.
rewrite d1 d2 d3 !normrN (ger0_norm t00) (ger0_norm tt0) !ger0_norm //.
have m1 : Num.max (q 10) (q 10 + t) = q 10 + t by apply/max_idPr; rewrite ler_addl ltW.
have m2 : Num.max (q 10 + t) (q 10 + t + t) = q 10 + t + t by apply/max_idPr; rewrite ler_addl ltW.
have m3 : Num.max (q 10) (q 10 + t + t) = q 10 + t + t by apply/max_idPr; rewrite -addrA ler_addl addr_ge0 ?ltW.
rewrite m1 m2 m3; split.
- by rewrite {1}/t ler_add2l ler_wpmul2l // ler_addl ltW.
- by rewrite {1}/t ler_add2l ler_wpmul2l // -addrA ler_addl addr_ge0 ?ltW.
- rewrite -ltNge -addrA mulrDr addrA -/t ltr_add2l.
  apply: le_lt_trans (_ : q 1 * (t + t) < _); first by rewrite ler_wpmul2r // addr_ge0 ?ltW.
  rewrite -[X in _ < X]mul1r -[t + t]mulr2n -[t *+ 2]mulr_natl mulrA ltr_pmul2r //.
  by rewrite /q mulrAC mul1r ltr_pdivr_mulr ?ltr0n // mul1r ltr_nat.
Qed.
End Transitivity.

Example C09_example (g := Elt (RInt rat_realFieldType rat_eqType (- 1%:M : 'M[int]_2)) false false)
  (h := Elt (RInt rat_realFieldType rat_eqType (1%:M : 'M[int]_2)) false true) : elt_lt id g h.
Proof. by []. Qed.

Print Assumptions C09_transitive.
Print Assumptions C09_total.
Print Assumptions C09_identity_minimal.
Print Assumptions C09_sorting_unique.
Print Assumptions C10_equal_elements_hash_equal_partial.
Print Assumptions C10_hash_refuted.
Print Assumptions C11_reflexive.
Print Assumptions C11_symmetric.
Print Assumptions C11_tolerance_transitive_refuted.
