(* C105, continued: bravais_point_group returns for every basis of a primitive monoclinic, base centred orthorhombic or
   hexagonal lattice *)
From mathcomp Require Import all_ssreflect all_algebra zify.
From mathcomp Require Import complex.
From Verif Require Import Prelude PySet GroupGen GroupGenProofs GroupSpec PGE Spin Factories LinSpan NullSpec Complement RingTac.
From Verif Require PropFactories PropPointGroups PointGroups PropLLL2.
From Verif Require Import Continuum PropContinuum LLL PropLLL CVP PropCVP PropVoronoi Bravais PropBravais PropBravais2.
From Verif Require Import Bravais3 Space3 Branch3 Rhomb3 Lattice3 Mono3 PropBravais3.

Set Implicit Arguments.
Unset Strict Implicit.
Unset Printing Implicit Defensive.
Import Order.TTheory GRing.Theory Num.Theory.
Local Open Scope ring_scope.


Section Prism.
Variables (F : rcfType) (n : nat) (cs sn : F -> F).
Hypothesis trig : PropPointGroups.trig_table cs sn.
Let R := [comRingType of F].
Add Ring Rpr : (R_ring R).
Local Notation q v := (dot v v).
Local Notation cr := (@npcross F).
Local Notation s6 := (sn 6%:R^-1).
Variables (nb : seq 'rV[F]_3) (z : 'rV[F]_3).
Implicit Types (p t : 'rV[F]_3).
Hypotheses (un : uniq nb) (four : size nb = 4%N) (n0 : forall v, v \in nb -> v != 0) (zn : z \in nb).
Hypotheses (zp : forall p, p \in nb -> p != z -> dot p z = 0)
  (pp : forall p1 p2, p1 \in nb -> p2 \in nb -> p1 != z -> p2 != z -> dot p1 p2 != 0)
  (tri : forall p1 p2, p1 \in nb -> p2 \in nb -> p1 != p2 -> p1 != z -> p2 != z ->
    exists p3 : 'rV[F]_3, [/\ p3 \in nb, nb =i [:: p1; p2; p3; z], p3 != z & pm p3 (p1 + p2) \/ pm p3 (p1 - p2)]).
Hypothesis npar : forall u v, u \in nb -> v \in nb -> u != v -> cr u v != 0.
Let z0 : z != 0 := n0 zn.

Lemma ins (x y : 'rV[F]_3) : y \in nb -> pm x y -> x \in pms nb. Proof. by move=> yn [] ->; rewrite ?pmsN mem_pms yn. Qed.
Lemma prism_half_z : Branch3.sym nb (half z).
Proof.
split; first exact: half_orth.
move=> t tn; have [->|tz] := eqVneq t z; first by rewrite half_axis mem_pms zn.
by rewrite half_perp // 1?dotC ?zp // pmsN mem_pms tn.
Qed.
Lemma half_swap (x y : 'rV[F]_3) : q x = q y -> x + y != 0 -> act (half (x + y)) x = y.
Proof.
move=> e xy; rewrite act_half //; have -> : dot x (x + y) *+ 2 = q (x + y).
  by rewrite !dotDl !dotDr -e (dotC y x) mulr2n; move: (dot x x) (dot x y) => a b; ringm R.
by rewrite divff ?dot_eq0 // scale1r addrAC subrr add0r.
Qed.
(* the half turns about the diagonals of a rhombus *)
Lemma prism_diag p1 p2 p3 (b : bool) : nb =i [:: p1; p2; p3; z] -> dot p1 z = 0 -> dot p2 z = 0 -> q p1 = q p2 -> p1 + (-1) ^+ b *: p2 != 0 ->
  pm p3 (p1 + p2) \/ pm p3 (p1 - p2) -> Branch3.sym nb (half (p1 + (-1) ^+ b *: p2)).
Proof.
move=> e3 h1 h2 e a0 h3; set a := p1 + _ in a0 *; split; first exact: half_orth.
have [i1 i2 i3] : [/\ p1 \in nb, p2 \in nb & p3 \in nb] by split; rewrite e3 !inE eqxx ?orbT.
have a1 : act (half a) p1 = (-1) ^+ b *: p2.
  by apply: half_swap => //; case: (b); rewrite ?expr1 ?expr0 ?scale1r // scaleN1r dotNl dotNr opprK.
have a2 : act (half a) ((-1) ^+ b *: p2) = p1.
  rewrite /a addrC; apply: half_swap; last by rewrite addrC.
  by case: (b); rewrite ?expr1 ?expr0 ?scale1r // scaleN1r dotNl dotNr opprK.
have sg x : pm ((-1) ^+ b *: x) x by case: (b); rewrite ?expr1 ?expr0 ?scale1r ?scaleN1r; [right|left].
have a2' : pm (act (half a) p2) p1.
  by move: a2; case: (b); rewrite ?expr1 ?expr0 ?scale1r ?scaleN1r ?actN => <-; [right; rewrite opprK|left].
have az : dot a z = 0 by rewrite /a dotDl dotZl h1 h2 mulr0 addr0.
move=> t; rewrite e3 !inE => /or4P[] /eqP ->.
- by rewrite a1; apply: (ins i2).
- exact: (ins i1).
- apply: (ins i3).
  have d1 : act (half a) (p1 + (-1) ^+ b *: p2) = p1 + (-1) ^+ b *: p2 by rewrite actD a1 a2 addrC.
  have d2 : act (half a) (p1 - (-1) ^+ b *: p2) = - (p1 - (-1) ^+ b *: p2) by rewrite actD actN a1 a2 opprB.
  have hp : pm p3 (p1 + (-1) ^+ b *: p2) \/ pm p3 (p1 - (-1) ^+ b *: p2).
    by move: h3; case: (b); rewrite ?expr1 ?expr0 ?scale1r ?scaleN1r ?opprK // => -[]; [right|left].
  by case: hp => -[] ->; rewrite ?actN ?d1 ?d2 ?opprK; (by left) || right; rewrite ?opprK.
- by rewrite half_perp // pmsN mem_pms zn.
Qed.

(* three vectors of equal length *)
Section Hex.
Hypothesis eq3 : forall p1 p2, p1 \in nb -> p2 \in nb -> p1 != z -> p2 != z -> q p1 = q p2.
Lemma hex_pair p1 p2 : p1 \in nb -> p2 \in nb -> p1 != p2 -> p1 != z -> p2 != z ->
  exists b p3, [/\ pm b p2, p3 \in nb, pm p3 (p1 + b) & dot p1 b *+ 2 = - q p1].
Proof.
move=> i1 i2 ne n1 n2; have [p3 [i3 e3 n3 h]] := tri i1 i2 ne n1 n2.
have [b hb h3] : exists2 b, pm b p2 & pm p3 (p1 + b) by case: h => h; [exists p2; [left|] | exists (- p2); [right|]].
exists b, p3; split=> //; have := pmq h3; rewrite (eq3 i3 i1) // !dotDl !dotDr (dotC b p1) (pmq hb) -(eq3 i1 i2) //.
move: (dot p1 b) (dot p1 p1) => x y e; apply/eqP; rewrite -subr_eq0 opprK; apply/eqP.
have -> : x *+ 2 + y = (y + x + (x + y)) - y by rewrite mulr2n; ringm R.
by rewrite -e subrr.
Qed.
Lemma prism_half_p p : p \in nb -> p != z -> Branch3.sym nb (half p).
Proof.
move=> i1 n1; split; first exact: half_orth.
have p0 := n0 i1; move=> t tn; have [->|tz] := eqVneq t z; first by rewrite half_perp ?zp // pmsN mem_pms zn.
have [->|tp] := eqVneq t p; first by rewrite half_axis mem_pms i1.
have pt : p != t by rewrite eq_sym.
have [b [p3 [hb i3 h3 e]]] := hex_pair i1 tn pt n1 tz.
have hB : act (half p) b = - (p + b) by rewrite act_half // dotC e mulNr divff ?dot_eq0 // scaleN1r opprD.
by apply: (ins i3); case: (pmC hb) => ->; rewrite ?actN hB ?opprK; apply: pmC => //; case: h3 => ->; [right|left]; rewrite ?opprK.
Qed.
Lemma prism_sixth : Branch3.sym nb (sixth s6 z).
Proof.
have es := sn6 trig; split; first exact: sixth_orth.
move=> t tn; have [->|tz] := eqVneq t z; first by rewrite rot_axis mem_pms zn.
have [p [pn pt pz]] : exists p, [/\ p \in nb, t != p & p != z].
  have : has (fun p => (p != t) && (p != z)) nb.
    apply: contraT; rewrite -all_predC => /allP h.
    have : (size nb <= size [:: t; z])%N by apply: uniq_leq_size => // x /h /=; rewrite negb_and !negbK !inE.
    by rewrite four.
  by case/hasP=> p pn /andP[h1 h2]; exists p; rewrite eq_sym.
have [b [p3 [hb i3 h3 e]]] := hex_pair tn pn pt tz pz.
set y := act _ t; have oS := sixth_orth es z; have tz0 := zp tn tz.
have yz : dot y z = 0 by rewrite -[z](rot_axis 2^-1 s6 z) dot_act.
have qy : q y = q t by exact: dot_act.
have yt : dot y t = 2^-1 * q t.
  by rewrite /y act_rot // tz0 mulr0 mul0r scale0r addr0 dotDl !dotZl [dot (cr _ _) _]dotC dot_crr mulr0 addr0.
have bz : dot b z = 0 by case: hb => ->; rewrite ?dotNl ?zp ?oppr0.
have eb : dot t b = - (2^-1 * q t).
  by apply: (mulIf (_ : 2%:R != 0)); rewrite ?pnatr_eq0 // mulr_natr e mulNr mulrAC mulVf ?pnatr_eq0 // mul1r.
have tt0 := n0 tn; have hq : q t = 2^-1 * q t + 2^-1 * q t by rewrite -mulrDl halves mul1r.
have o1 : dot (y + b) t = 0 by rewrite dotDl yt [dot b t]dotC eb subrr.
have o2 : dot (y - t - b) t = 0 by rewrite !dotDl !dotNl yt [dot b t]dotC eb opprK addrAC -hq subrr.
have o3 : dot (y + b) z = 0 by rewrite dotDl yz bz addr0.
have o4 : dot (y - t - b) z = 0 by rewrite !dotDl !dotNl yz bz tz0 !oppr0 !addr0.
have qb : q b = q t by rewrite (pmq hb); apply: eq3.
have o5 : dot (y + b) (y - t - b) = 0.
  rewrite !dotDl !dotDr !dotNr qy qb yt [dot b t]dotC eb [dot b y]dotC; move: (2^-1 * q t) (dot y b) (q t) => u v w; ringm R.
have c0 : cr t z != 0 by apply: perp_npar.
have : y + b = 0 \/ y - t - b = 0.
  have [h|h] := eqVneq (y - t - b) 0; [by right|left].
  have par : cr (y + b) (y - t - b) = 0.
    by apply: (@par_trans _ _ (cr t z)) => //; apply: perp_par.
  by have := parE par h; rewrite o5 mul0r scale0r.
case=> /eqP; first by rewrite addr_eq0 => /eqP ->; apply: (ins pn); case: hb => ->; [right|left]; rewrite ?opprK.
by rewrite -addrA -opprD subr_eq0 => /eqP ->; apply: (ins i3); exact: pmC.
Qed.
End Hex.

(* the vector perpendicular to the others is alone in its set *)
Lemma prism_perm : exists p1 p2 p3, [/\ perm_eq nb [:: p1; p2; p3; z], uniq [:: p1; p2; p3; z],
  (p1 \in nb) && (p1 != z), (p2 \in nb) && (p2 != z) & (p3 \in nb) && (p3 != z)].
Proof.
have : size (rem z nb) = 3%N by rewrite size_rem // four.
have pe := perm_to_rem zn; have uz : uniq (z :: rem z nb) by rewrite -(perm_uniq pe).
case er: (rem z nb) => [|p1 [|p2 [|p3 []]]] // _; rewrite er in pe uz.
have pe' : perm_eq nb [:: p1; p2; p3; z] by apply: (perm_trans pe); rewrite perm_sym; exact: (permEl (perm_rcons z [:: p1; p2; p3])).
exists p1, p2, p3; split=> //; first by rewrite -(perm_uniq pe').
- by rewrite (perm_mem pe) !inE eqxx !orbT; move: uz; rewrite /= !inE !negb_or !(eq_sym z) => /andP[/and3P[]].
- by rewrite (perm_mem pe) !inE eqxx !orbT; move: uz; rewrite /= !inE !negb_or !(eq_sym z) => /andP[/and3P[]].
- by rewrite (perm_mem pe) !inE eqxx !orbT; move: uz; rewrite /= !inE !negb_or !(eq_sym z) => /andP[/and3P[]].
Qed.
Lemma prism_alone : class_of nb z = [:: z].
Proof.
rewrite /class_of -[RHS](filter_pred1_uniq un zn); apply: eq_in_filter => t tn /=; apply/eqP/eqP => [e|-> //].
apply/eqP/negPn/negP => tz; have qe := signature_q e; case: e => _ e _.
have so := @perm_sortP F <=%R (@le_total _ _) (@le_trans _ _) (@le_anti _ _).
have {e} : perm_eq [seq overlap t w | w <- nb] [seq overlap z w | w <- nb] by apply/so.
move=> h; have {h} : \sum_(w <- nb) overlap t w = \sum_(w <- nb) overlap z w.
  by rewrite -(big_map (overlap t) xpredT id) -[RHS](big_map (overlap z) xpredT id); exact: perm_big.
have E : \sum_(w <- nb | w != z) overlap z w = 0.
  by rewrite big_seq_cond big1 // => w /andP[wn wz]; rewrite /overlap dotC zp // normr0.
rewrite (bigD1_seq t) //= [RHS](bigD1_seq z) //= !overlap_q qe E.
move=> /addrI h; have [p [pn pt pz]] : exists p, [/\ p \in nb, p != t & p != z].
  have : has (fun p => (p != t) && (p != z)) nb.
    apply: contraT; rewrite -all_predC => /allP h'.
    have : (size nb <= size [:: t; z])%N by apply: uniq_leq_size => // x /h' /=; rewrite negb_and !negbK !inE.
    by rewrite four.
  by case/hasP=> p pn /andP[h1 h2]; exists p.
move: h; rewrite (big_rem p) //= pt => /eqP; rewrite paddr_eq0; last 2 first.
- exact: normr_ge0.
- by apply: sumr_ge0 => w _; exact: normr_ge0.
by rewrite /overlap normr_eq0 (negbTE (pp tn pn tz pz)).
Qed.
Lemma prism_sizes : [\/ [seq size S | S <- equals nb] = [:: 1; 3]%N, [seq size S | S <- equals nb] = [:: 1; 1; 2]%N |
  [seq size S | S <- equals nb] = [:: 1; 1; 1; 1]%N].
Proof.
have := equals_size un; rewrite four.
have ne S : S \in equals nb -> (0 < size S)%N.
  by case/equalsP=> v vn ->; rewrite -has_predT; apply/hasP; exists v => //; rewrite mem_filter eqxx.
have so : sorted leq [seq size S | S <- equals nb] by exact: sizes_sorted.
have one : (1 \in [seq size S | S <- equals nb])%N.
  by apply/mapP; exists (class_of nb z); [exact: equals_in | rewrite prism_alone].
have : all (fun k => 0 < k)%N [seq size S | S <- equals nb] by apply/allP=> k /mapP[S /ne h ->].
move: so one; move: [seq size S | S <- equals nb] => l; case: l => [|x [|y [|w [|t [|r l]]]]] /=; rewrite ?inE.
- by [].
- by move=> _ /eqP <-.
- move=> /andP[xy _] one /and3P[x0 y0 _] e; have [-> ->] : x = 1%N /\ y = 3%N by lia.
  by constructor 1.
- move=> /and3P[xy yw _] _ /and4P[x0 y0 w0 _] e; have [-> -> ->] : [/\ x = 1%N, y = 1%N & w = 2%N] by split; lia.
  by constructor 2.
- move=> _ _ /and5P[x0 y0 w0 t0 _] e; have [-> -> -> ->] : [/\ x = 1%N, y = 1%N, w = 1%N & t = 1%N] by split; lia.
  by constructor 3.
- by move=> _ _ /and5P[x0 y0 w0 t0 /andP[r0 _]] e; exfalso; move: (sumn l) e => k; lia.
Qed.
Lemma z_set S : S \in equals nb -> z \in S -> S = [:: z].
Proof. by move=> SE zS; rewrite -prism_alone; apply: (equals_disjoint SE (equals_in zn) zS); rewrite mem_filter eqxx zn. Qed.
Lemma prism_pick : pick_perp nb 3 nb = [:: z].
Proof.
rewrite /pick_perp -[RHS](filter_pred1_uniq un zn); apply: eq_in_filter => t tn /=.
have [p1 [p2 [p3 [pe u /andP[i1 n1] /andP[i2 n2] /andP[i3 n3]]]]] := prism_perm.
rewrite (seq.permP pe) /=; have [->|tz] := eqVneq t z; first by rewrite !(dotC z) (zp i1) // (zp i2) // (zp i3) // eqxx.
by rewrite (negbTE (pp tn i1 tz n1)) (negbTE (pp tn i2 tz n2)) (negbTE (pp tn i3 tz n3)) zp // eqxx.
Qed.
Lemma prism_group : exists2 gs, bravais_group_3d n cs sn nb = Ok gs & forall g, List.In g gs -> Branch3.sym nb (pR g).
Proof.
have mem S t : S \in equals nb -> (size S != 1)%N -> t \in S -> t \in nb /\ t != z.
  move=> SE s1 tS; split; first exact: (equals_sub SE).
  by apply: contraNneq s1 => e; rewrite (z_set SE) // -e.
rewrite /bravais_group_3d four /=; case: prism_sizes => es; rewrite es /=.
- case eE: (equals nb) es => [|S0 [|S1 []]] //= [e0 e1].
  have SE : S1 \in equals nb by rewrite eE !inE eqxx orbT.
  have s1 : (size S1 != 1)%N by rewrite e1.
  have S0z : S0 = [:: z].
    have : [:: z] \in equals nb by rewrite -prism_alone; exact: equals_in.
    by rewrite eE !inE => /orP[/eqP //|/eqP e]; move: s1; rewrite -e.
  case: S1 e1 SE s1 eE => // p S1 [e1] SE s1 eE.
  have [pn pz] := mem _ p SE s1 (mem_head _ _).
  have all3 t : t \in nb -> t != z -> t \in p :: S1.
    by move=> tn tz; have := perm_mem (equals_perm un) t; rewrite eE S0z tn /= cats0 inE (negbTE tz).
  have eq3 p1 p2 : p1 \in nb -> p2 \in nb -> p1 != z -> p2 != z -> q p1 = q p2.
    by move=> h1 h2 h3 h4; apply: (equals_len SE); apply: all3.
  eexists; first by []. 
  rewrite S0z /= => g [<-|[<-|[]]]; rewrite ?(rot3_half n trig) ?(rot3_sixth n trig); [exact: prism_sixth | exact: prism_half_p].
- have [a [b [eS SE]]] : exists a b, nth [::] (equals nb) 2 = [:: a; b] /\ [:: a; b] \in equals nb.
    case eE: (equals nb) es => [|S0 [|S1 [|[|a [|b []]] []]]] // _; exists a, b; split=> //; by rewrite !inE eqxx !orbT.
  have [[an az] [bn bz]] := (mem _ a SE isT (mem_head _ _), mem _ b SE isT (mem_last a [:: b])).
  have ab : a != b by have := equals_uniq_set un SE; rewrite /= inE andbT.
  have [p3 [i3 e3 n3 h3]] := tri an bn ab az bz.
  have eq : q a = q b by apply: (equals_len SE); rewrite !inE eqxx ?orbT.
  have c0 := npar an bn ab.
  have d0 (k : F) : a + k *: b != 0.
    by apply: contraNneq c0 => /eqP; rewrite addr_eq0 => /eqP ->; rewrite crNl crZl crxx scaler0 oppr0.
  rewrite eS /=; eexists; first by [].
  move=> g [<-|[<-|[<-|[]]]]; rewrite ?(rot3_half n trig).
  + by have := prism_diag (b := false) e3 (zp an az) (zp bn bz) eq (d0 _) h3; rewrite expr0 scale1r.
  + by have := prism_diag (b := true) e3 (zp an az) (zp bn bz) eq (d0 _) h3; rewrite expr1 scaleN1r.
  + have -> : half (cr a b) = half z; last exact: prism_half_z.
    by apply: half_par => //; apply/eqP; rewrite cr_eq0C; apply/eqP; apply: perp_par; rewrite dotC zp.
- by rewrite prism_pick /=; eexists; first by []; move=> g [<-|[]]; rewrite (rot3_half n trig); exact: prism_half_z.
Qed.
End Prism.

Section Prisms.
Variables (F : rcfType) (n : nat).
Variables (cs sn : F -> F) (rnd : F -> int).
Variable near : F -> F -> bool.
Variable argsort : forall N, ('rV[int]_N -> F) -> seq 'rV[int]_N -> seq 'rV[int]_N.
Variable ord : forall d, seq (pge F d n) -> seq (pge F d n).
Hypothesis ordP : forall d, enumeration (@ord d).
Hypothesis rndP : forall x, `|x - (rnd x)%:~R| <= 2^-1.
Hypothesis near_refl : forall x, near x x.
Hypothesis argsort_perm : forall N key (s : seq 'rV[int]_N), perm_eq (argsort key s) s.
Hypothesis argsort_sorted : forall N key (s : seq 'rV[int]_N), sorted (fun z w => key z <= key w) (argsort key s).
Local Notation gsc := (fun N => @gs_coefficient F N).
Local Notation bravais := (bravais_square cs sn rnd gsc near argsort (bravais_group_3d n cs sn) ord).
Hypothesis trig : PropPointGroups.trig_table cs sn.
Let R := [comRingType of F].
Add Ring Rps : (R_ring R).

Local Notation q v := (dot v v).
Implicit Types (B P : 'M[F]_3) (u v w z t s x y : 'rV[F]_3).
(* a lattice with a basis u, v, z of which z is perpendicular to u and v; w closes the triangle, and the angles of u, v and w are
   obtuse, as they can be chosen unless the plane lattice has perpendicular basis vectors *)
Definition prism B u v w z := [/\ w = - (u + v), [/\ dot u v < 0, dot u w < 0 & dot v w < 0], [/\ z != 0, dot u z = 0 & dot v z = 0] &
  forall t, in_lattice B t <-> exists i j k, t = comb i j k u v z].
Lemma prismC B u v w z : prism B u v w z -> prism B v w u z.
Proof.
move=> [ew [uv uw vw] [z0 uz vz] h]; split.
- by rewrite ew opprD opprK addrC addrK.
- by split=> //; rewrite dotC.
- by split=> //; rewrite ew dotNl dotDl uz vz addr0 oppr0.
move=> t; rewrite h; split=> -[i [j [k ->]]].
  exists (j - i), (- i), k; rewrite /comb; congr (_ + _).
  by apply/rowP => l; rewrite ew mulrzBr mulrNz !mxE; move: (i%:~R : F) (j%:~R : F) (u 0 l) (v 0 l) => a b c d; ringm R.
exists (- j), (i - j), k; rewrite /comb; congr (_ + _).
by apply/rowP => l; rewrite ew mulrzBr mulrNz !mxE; move: (i%:~R : F) (j%:~R : F) (u 0 l) (v 0 l) => a b c d; ringm R.
Qed.
Lemma prism_q B u v w z i j k : prism B u v w z -> q (comb i j k u v z) =
  - dot u v * ((i - j) ^+ 2)%:~R + - dot u w * (i ^+ 2)%:~R + - dot v w * (j ^+ 2)%:~R + q z * (k ^+ 2)%:~R.
Proof.
move=> [-> _ [_ uz vz] _]; rewrite /comb !(dotDl, dotDr, dotZl, dotZr, dotNl, dotNr) !(dotC z) uz vz (dotC v u).
rewrite !expr2 !intrM !rmorphB /=; move: (i%:~R : F) (j%:~R : F) (k%:~R : F) (dot u u) (dot u v) (dot v v) (dot z z) => a b c d e f g.
ringm R.
Qed.
Lemma four_zero (a b c d : F) : 0 <= a -> 0 <= b -> 0 <= c -> 0 <= d -> a + b + c + d <= 0 -> [/\ a = 0, b = 0, c = 0 & d = 0].
Proof.
move=> a0 b0 c0 d0 le; have : a + b + c + d == 0 by rewrite eq_le le !addr_ge0.
by rewrite !paddr_eq0 ?addr_ge0 // => /andP[/andP[/andP[/eqP -> /eqP ->] /eqP ->] /eqP ->].
Qed.
Lemma sq0 (i : int) (a : F) : 0 < a -> a * (i ^+ 2)%:~R = 0 -> i = 0.
Proof. by move=> a0 /eqP; rewrite mulf_eq0 (gt_eqF a0) /= intr_eq0 sqrf_eq0 => /eqP. Qed.
Lemma sq_ge (a : F) (i : int) : 0 <= a -> 0 <= a * (i ^+ 2)%:~R.
Proof. by move=> a0; rewrite mulr_ge0 // ler0z sqr_ge0. Qed.
Lemma odd_ge (a : F) (i : int) : 0 <= a -> 0 <= a * ((1 + i *+ 2) ^+ 2 - 1)%:~R.
Proof. move=> a0; rewrite mulr_ge0 // ler0z expr2; clear; nia. Qed.
Lemma odd_pm (a : F) (i : int) : 0 < a -> a * ((1 + i *+ 2) ^+ 2 - 1)%:~R = 0 -> 1 + i *+ 2 = 1 \/ 1 + i *+ 2 = -1.
Proof. by move=> a0 /eqP; rewrite mulf_eq0 (gt_eqF a0) /= intr_eq0 subr_eq0 sqrf_eq1 => /orP[] /eqP ->; [left|right]. Qed.
Lemma prism_gt B u v w z : prism B u v w z -> [/\ 0 < - dot u v, 0 < - dot u w, 0 < - dot v w & 0 < q z].
Proof. by move=> [_ [h1 h2 h3] [z0 _ _] _]; rewrite !oppr_gt0; split=> //; exact: q_gt0. Qed.
Lemma prism_qu B u v w z : prism B u v w z -> q u = - dot u v + - dot u w.
Proof. by move=> [-> _ _ _]; rewrite dotNr dotDr opprK addrC addrK. Qed.
Lemma prism_min B u v w z s : prism B u v w z -> in_lattice B s -> q (u + s *+ 2) <= q u -> pm (u + s *+ 2) u.
Proof.
move=> pr; have [ew _ _ h] := pr; move=> /h [i [j [k ->]]].
have -> : u + comb i j k u v z *+ 2 = comb (1 + i *+ 2) (j *+ 2) (k *+ 2) u v z.
  by rewrite /comb !mulrnDl intrD !rmorphMn /= scalerDl scale1r -!scalerMnl -!addrA.
have [a0 b0 c0 d0] := prism_gt pr; rewrite (prism_q _ _ _ pr) (prism_qu pr) => le.
have [] := @four_zero (- dot u v * ((1 + (i - j) *+ 2) ^+ 2 - 1)%:~R) (- dot u w * ((1 + i *+ 2) ^+ 2 - 1)%:~R) (- dot v w * ((j *+ 2) ^+ 2)%:~R) (q z * ((k *+ 2) ^+ 2)%:~R).
- exact/odd_ge/ltW.
- exact/odd_ge/ltW.
- exact/sq_ge/ltW.
- exact/sq_ge/ltW.
- rewrite -subr_le0 in le; apply: le_trans le; rewrite le_eqVlt; apply/orP; left; apply/eqP.
  have -> : 1 + i *+ 2 - j *+ 2 = 1 + (i - j) *+ 2 by clear; lia.
  rewrite !mulrzBr; move: (- dot u v) (- dot u w) (- dot v w) (q z) => a b c d.
  move: (((1 + (i - j) *+ 2) ^+ 2)%:~R : F) (((1 + i *+ 2) ^+ 2)%:~R : F) (((j *+ 2) ^+ 2)%:~R : F) (((k *+ 2) ^+ 2)%:~R : F) => a' b' c' d'.
  rewrite -[1%:~R]/(1); ringm R.
move=> _ /(odd_pm b0) hi /(sq0 c0) -> /(sq0 d0) ->; rewrite /comb !scale0r !addr0.
by case: hi => ->; [left; rewrite scale1r | right; rewrite scaleN1r].
Qed.
Lemma prism_min_z B u v w z s : prism B u v w z -> in_lattice B s -> q (z + s *+ 2) <= q z -> pm (z + s *+ 2) z.
Proof.
move=> pr; have [ew _ _ h] := pr; move=> /h [i [j [k ->]]].
have -> : z + comb i j k u v z *+ 2 = comb (i *+ 2) (j *+ 2) (1 + k *+ 2) u v z.
  have e : (1 + k *+ 2)%:~R = 1 + k%:~R *+ 2 :> F by rewrite rmorphD rmorphMn.
  by rewrite /comb e !mulrnDl !rmorphMn /= [in RHS]scalerDl scale1r -!scalerMnl [RHS]addrCA.
have [a0 b0 c0 d0] := prism_gt pr; rewrite (prism_q _ _ _ pr) => le.
have [] := @four_zero (- dot u v * ((i *+ 2 - j *+ 2) ^+ 2)%:~R) (- dot u w * ((i *+ 2) ^+ 2)%:~R) (- dot v w * ((j *+ 2) ^+ 2)%:~R) (q z * ((1 + k *+ 2) ^+ 2 - 1)%:~R).
- exact/sq_ge/ltW.
- exact/sq_ge/ltW.
- exact/sq_ge/ltW.
- exact/odd_ge/ltW.
- rewrite -subr_le0 in le; apply: le_trans le; rewrite le_eqVlt; apply/orP; left; apply/eqP.
  by rewrite !mulrzBr mulrBr mulr1 addrA.
move=> _ /(sq0 b0) -> /(sq0 c0) -> /(odd_pm d0) hk; rewrite /comb !scale0r !add0r.
by case: hk => ->; [left; rewrite scale1r | right; rewrite scaleN1r].
Qed.
Lemma prism_u0 B u v w z : prism B u v w z -> u != 0.
Proof. by move=> [_ [h _ _] _ _]; apply: contraTneq h => ->; rewrite dot0l ltxx. Qed.
Lemma prism_odd B u v w z : prism B u v w z -> in_lattice B u /\ forall s, in_lattice B s -> u <> s *+ 2.
Proof.
move=> pr; have u0 := prism_u0 pr; split.
  by have [_ _ _ h] := pr; apply/h; exists 1, 0, 0; rewrite /comb !scale0r !addr0 scale1r.
move=> s sL e; have := prism_min pr (in_latN sL); rewrite mulNrn -e subrr dot0l dot_ge0 => /(_ isT) [] /eqP; rewrite eq_sym ?oppr_eq0; exact/negP.
Qed.
Lemma prism_odd_z B u v w z : prism B u v w z -> in_lattice B z /\ forall s, in_lattice B s -> z <> s *+ 2.
Proof.
move=> pr; have [_ _ [z0 _ _] h] := pr; split; first by apply/h; exists 0, 0, 1; rewrite /comb !scale0r !add0r scale1r.
move=> s sL e; have := prism_min_z pr (in_latN sL); rewrite mulNrn -e subrr dot0l dot_ge0 => /(_ isT) [] /eqP; rewrite eq_sym ?oppr_eq0; exact/negP.
Qed.
Lemma prism_ne B u v w z : prism B u v w z -> ~ pm u v /\ ~ pm u z.
Proof.
move=> pr; have u0 := prism_u0 pr; have [ew [h1 h2 h3] [z0 uz vz] _] := pr; split=> -[e|e].
- by move: h1; rewrite -e ltNge dot_ge0.
- by move: h2; rewrite ew e addNr oppr0 dot0r ltxx.
- by move: uz; rewrite -e => /eqP; rewrite dot_eq0 (negbTE u0).
- by move: uz; rewrite e dotNl => /eqP; rewrite oppr_eq0 dot_eq0 (negbTE z0).
Qed.
Lemma third_pm x y t x' y' t' : t = - (x + y) -> pm x x' -> pm y y' -> pm t t' -> pm t' (x' + y') \/ pm t' (x' - y').
Proof.
move=> -> hx hy /pmC ht.
have {}ht : pm t' (x + y) by case: ht => ->; [right|left]; rewrite ?opprK.
case: hx ht => ->; case: hy => -> ht.
- by left.
- by right.
- by right; case: ht => ->; [right; rewrite opprB addrC | left; rewrite opprD opprK].
- by left; case: ht => ->; [right|left]; rewrite ?opprD ?opprK.
Qed.
Lemma pmd x y x' y' : pm x x' -> pm y y' -> dot x y = 0 -> dot x' y' = 0.
Proof. by move=> /pmC [->|->] /pmC [->|->]; rewrite ?dotNl ?dotNr ?opprK // => e; rewrite e oppr0. Qed.
Lemma pmd_neq x y x' y' : pm x x' -> pm y y' -> dot x y < 0 -> dot x' y' != 0.
Proof. by move=> hx hy lt; apply/eqP => /(pmd (pmC hx) (pmC hy)) e; rewrite e ltxx in lt. Qed.
Lemma oddi_ex (i : int) : (exists j, i = j *+ 2) \/ exists j, i = 1 + j *+ 2.
Proof.
case e: (oddi i); last by left; exact: oddi_half.
by right; have [|j ej] := @oddi_half (i - 1); [rewrite oddiD e | exists j; rewrite -ej addrC subrK].
Qed.
Lemma prism_nb P zs u v w z : row_free P -> shortest_set P zs -> prism P u v w z -> let nb := neighbors P zs in
  exists z', [/\ z' \in nb, size nb = 4%N, forall p, p \in nb -> p != z' -> dot p z' = 0,
    forall p1 p2, p1 \in nb -> p2 \in nb -> p1 != z' -> p2 != z' -> dot p1 p2 != 0 &
    forall p1 p2, p1 \in nb -> p2 \in nb -> p1 != p2 -> p1 != z' -> p2 != z' ->
      exists p3 : 'rV[F]_3, [/\ p3 \in nb, nb =i [:: p1; p2; p3; z'], p3 != z' & pm p3 (p1 + p2) \/ pm p3 (p1 - p2)]].
Proof.
move=> fP szs pr nb; have un : uniq (pms nb) := uniq_neighbors fP szs.
have nz t : t \in nb -> t != 0 by move=> vn; apply/eqP => e; have := nb_sign un vn vn; rewrite e oppr0 => /(_ erefl).
have d0 (r : 'rV[F]_3) : r *+ 2 = 0 -> r = 0 by rewrite -scaler_nat => /eqP; rewrite scaler_eq0 pnatr_eq0 => /eqP.
have pv := prismC pr; have pw := prismC pv.
have mem x : in_lattice P x /\ (forall s, in_lattice P s -> x <> s *+ 2) -> (forall s, in_lattice P s -> q (x + s *+ 2) <= q x -> pm (x + s *+ 2) x) ->
    exists2 r, r \in nb & pm x r.
  move=> [h1 h2] h3; have : x \in pms nb by apply: (nb_all rndP fP szs).
  by rewrite mem_pms => /orP[tn|tn]; [exists x => //; left | exists (- x) => //; right; rewrite opprK].
have [u' ui pu] := mem u (prism_odd pr) (fun s => prism_min pr).
have [v' vi pv'] := mem v (prism_odd pv) (fun s => prism_min pv).
have [w' wi pw'] := mem w (prism_odd pw) (fun s => prism_min pw).
have [z' zi pz] := mem z (prism_odd_z pr) (fun s => prism_min_z pr).
have sgn t x r : t \in nb -> r \in nb -> pm t x -> pm x r -> t = r.
  by move=> tn rn h1 h2; case: (pmT h1 h2) => // e; have := nb_sign un rn tn e.
have cl t x r s : (forall s, in_lattice P s -> q (x + s *+ 2) <= q x -> pm (x + s *+ 2) x) -> pm x r -> r \in nb -> t \in nb ->
    in_lattice P s -> t = x + s *+ 2 -> t = r.
  move=> mn xr rn tn sL e; apply: (sgn _ x) => //; have [le|lt] := lerP (q t) (q x); first by rewrite e; apply: mn => //; rewrite -e.
  have ex : t + (- s) *+ 2 = x by rewrite e mulNrn addrK.
  by apply: pmC; rewrite -ex; apply: (nb_min rndP fP szs tn (in_latN sL)); rewrite ex ltW.
have [ew [duv duw dvw] [z0 uz vz] hL] := pr.
have comL i j k : in_lattice P (comb i j k u v z) by apply/hL; exists i, j, k.
have e4 : nb =i [:: u'; v'; w'; z'].
  move=> t; apply/idP/idP; last by rewrite !inE => /or4P[] /eqP ->.
  move=> tn; have [i [j [k et]]] := (hL t).1 (nb_lat tn); rewrite !inE.
  have fl : k = 0 \/ i%:~R *: u + j%:~R *: v = 0.
    have kz : in_lattice P (comb 0 0 (- k) u v z) by [].
    have e1 : comb i j k u v z + comb 0 0 (- k) u v z *+ 2 = comb i j (- k) u v z.
      by apply/rowP => l; rewrite /comb mulr2n !mulrNz !mxE; move: (i%:~R : F) (j%:~R : F) (k%:~R : F) (u 0 l) (v 0 l) (z 0 l) => a b c d e f; rewrite -[0%:~R]/(0); ringm R.
    have := nb_min rndP fP szs tn kz; rewrite et e1 => /(_ _) [|e|e].
    - by rewrite !(prism_q _ _ _ pr) sqrrN.
    - left; move: e; rewrite /comb => /addrI /eqP; rewrite -subr_eq0 -scalerBl mulrNz scaler_eq0 (negbTE z0) orbF -opprD oppr_eq0 -mulr2n mulrn_eq0 /= intr_eq0 => /eqP //.
    - right; move: e; rewrite /comb opprD mulrNz scaleNr => /addIr /eqP; rewrite -subr_eq0 opprK -mulr2n => /eqP; exact: d0.
  have tw x r s : (forall s, in_lattice P s -> q (x + s *+ 2) <= q x -> pm (x + s *+ 2) x) -> pm x r -> r \in nb -> in_lattice P s -> t = x + s *+ 2 -> t = r.
    by move=> h1 h2 h3 h4 h5; exact: (cl _ _ _ _ h1 h2 h3 tn h4 h5).
  have even s : in_lattice P s -> t <> s *+ 2.
    move=> sL e; have e0 : t + (- s) *+ 2 = 0 by rewrite e mulNrn subrr.
    have := nb_min rndP fP szs tn (in_latN sL); rewrite e0 dot0l dot_ge0 => /(_ isT) h.
    by have := nz t tn; case: h => [<-|/eqP]; [rewrite eqxx | rewrite eq_sym oppr_eq0 => ->].
  have e2 (a : int) : (a *+ 2)%:~R = a%:~R *+ 2 :> F by rewrite rmorphMn.
  have e1 (a : int) : (1 + a *+ 2)%:~R = 1 + a%:~R *+ 2 :> F by rewrite (intrD _ 1 (a *+ 2)) e2.
  case: fl => [k0|p0].
    have [[i' ei]|[i' ei]] := oddi_ex i; have [[j' ej]|[j' ej]] := oddi_ex j.
    - by case: (@even (comb i' j' 0 u v z)) => //; rewrite et k0 ei ej /comb !scale0r !addr0 (e2 i') (e2 j') -!scalerMnl mulrnDl.
    - rewrite (tw v v' (comb i' j' 0 u v z)) ?eqxx ?orbT //; first exact: (fun s => prism_min pv).
      by rewrite et k0 ei ej /comb !scale0r !addr0 (e1 j') (e2 i') scalerDl scale1r -!scalerMnl mulrnDl addrCA.
    - rewrite (tw u u' (comb i' j' 0 u v z)) ?eqxx ?orbT //; first exact: (fun s => prism_min pr).
      by rewrite et k0 ei ej /comb !scale0r !addr0 (e1 i') (e2 j') scalerDl scale1r -!scalerMnl mulrnDl addrA.
    - rewrite (tw w w' (comb (1 + i') (1 + j') 0 u v z)) ?eqxx ?orbT //; first exact: (fun s => prism_min pw).
      rewrite et k0 ei ej ew /comb mulr2n; apply/rowP => l; rewrite (e1 i') (e1 j') !(intrD _ 1) !mulr2n !mxE.
      move: (i'%:~R : F) (j'%:~R : F) (u 0 l) (v 0 l) => a b c d; rewrite -[0%:~R]/(0) -[1%:~R]/(1) !mul0r !addr0; ringm R.
  have [[k' ek]|[k' ek]] := oddi_ex k.
    by case: (@even (comb 0 0 k' u v z)) => //; rewrite et ek /comb p0 !scale0r !add0r (e2 k') -scalerMnl.
  rewrite (tw z z' (comb 0 0 k' u v z)) ?eqxx ?orbT //; first exact: (fun s => prism_min_z pr).
  by rewrite et ek /comb p0 !scale0r !add0r (e1 k') scalerDl scale1r -scalerMnl.
have [[uv uz'] [vw vz'] [wu wz']] := And3 (prism_ne pr) (prism_ne pv) (prism_ne pw).
have neq x y x' y' : pm x x' -> pm y y' -> ~ pm x y -> x' != y'.
  by move=> h1 h2 h3; apply/eqP => e; apply: h3; apply: pmT h1 _; rewrite e; exact: pmC.
have [nuv nvw nwu] := And3 (neq _ _ _ _ pu pv' uv) (neq _ _ _ _ pv' pw' vw) (neq _ _ _ _ pw' pu wu).
have [nuz nvz nwz] := And3 (neq _ _ _ _ pu pz uz') (neq _ _ _ _ pv' pz vz') (neq _ _ _ _ pw' pz wz').
have wz : dot w z = 0 by have [_ _ [_ _ h] _] := pv.
exists z'; split=> //.
- have u4 : uniq [:: u'; v'; w'; z'] by rewrite /= !inE !negb_or nuv nvw nuz nvz nwz /= eq_sym nwu.
  by have := uniq_size_uniq u4 (fun t => esym (e4 t)); rewrite (uniq_nb un) => /esym/eqP.
- by move=> p; rewrite e4 !inE => /or4P[] /eqP -> //; rewrite ?eqxx // => _; apply: pmd pz _; eassumption.
- have nn x : x \in nb -> dot x x != 0 by move=> /nz; rewrite dot_eq0.
  have [a1 a2 a3] := And3 (pmd_neq pu pv' duv) (pmd_neq pu pw' duw) (pmd_neq pv' pw' dvw).
  move=> p1 p2; rewrite !e4 !inE => /or4P[] /eqP -> /or4P[] /eqP ->; rewrite ?eqxx // => _ _; rewrite ?nn //; by rewrite // dotC.
have [eu ev] : u = - (v + w) /\ v = - (u + w) by have [h _ _ _] := pv; have [h' _ _ _] := pw; split=> //; rewrite addrC.
move=> p1 p2 i1 i2 n12 n1 n2.
have perm (x y t : 'rV[F]_3) : perm_eq [:: x; y; t] [:: u'; v'; w'] -> nb =i [:: x; y; t; z'].
  move=> pe r; rewrite e4 -[[:: u'; v'; w'; z']]/([:: u'; v'; w'] ++ [:: z']) mem_cat -(perm_mem pe) !inE !orbA //.
have fin x y t x' y' t' : t = - (x + y) -> pm x x' -> pm y y' -> pm t t' -> t' \in nb -> t' != z' -> perm_eq [:: x'; y'; t'] [:: u'; v'; w'] ->
    exists p3 : 'rV[F]_3, [/\ p3 \in nb, nb =i [:: x'; y'; p3; z'], p3 != z' & pm p3 (x' + y') \/ pm p3 (x' - y')].
  by move=> et hx hy ht tn tz pe; exists t'; split=> //; [exact: perm | exact: third_pm et hx hy ht].
have p123 : perm_eq [:: u'; v'; w'] [:: u'; v'; w'] by [].
have p213 : perm_eq [:: v'; u'; w'] [:: u'; v'; w'] by rewrite -[X in perm_eq _ X]/([:: u'] ++ [:: v'; w']) (perm_catCA [:: v'] [:: u'] [:: w']).
have p132 : perm_eq [:: u'; w'; v'] [:: u'; v'; w'] by rewrite perm_cons (perm_catC [:: w'] [:: v']).
have p231 : perm_eq [:: v'; w'; u'] [:: u'; v'; w'] by rewrite (perm_catC [:: v'; w'] [:: u']).
have p312 : perm_eq [:: w'; u'; v'] [:: u'; v'; w'] by rewrite (perm_catC [:: w'] [:: u'; v']).
have p321 : perm_eq [:: w'; v'; u'] [:: u'; v'; w'] by apply: perm_trans p132; rewrite (perm_catC [:: w'; v'] [:: u']).
move: i1 i2 n12 n1 n2; rewrite !e4 !inE => /or4P[] /eqP -> /or4P[] /eqP ->; rewrite ?eqxx // => _ _ _.
- exact: (fin u v w u' v' w').
- exact: (fin u w v u' w' v').
- by apply: (fin v u w v' u' w') => //; rewrite addrC.
- exact: (fin v w u v' w' u').
- by apply: (fin w u v w' u' v') => //; rewrite addrC.
- by apply: (fin w v u w' v' u') => //; rewrite addrC.
Qed.

(* for every basis of such a lattice it returns *)
Theorem C105_prism B c u v w z : row_free B -> prism B u v w z -> 4%:R / 3%:R < c ->
  exists f0, forall fuel tr ph generators, (f0 <= fuel)%N -> exists G, bravais fuel B c 0 tr ph generators = Some (Ok G).
Proof.
move=> fB [ew o z3 bx] c43; have [f1 [P [T [el [_ _ sl _]]]]] := PropLLL2.C104_lll rndP near_refl fB c43.
have fP := same_free sl fB; have [f2 [V ev]] := C58_terminates fP rndP (@argsort_perm _) (@argsort_sorted _) true 0.
have [zs szs eV] := voronoiP fP rndP (@argsort_perm _) (@argsort_sorted _) ev.
have bP : prism P u v w z by split=> // t; rewrite -bx; split; apply: same_in_lattice => //; exact: same_sym.
have en : take (size V)./2 [seq lattice_point P z | z <- V] = neighbors P zs by rewrite eV half_pm.
have un := uniq_neighbors fP szs.
have n0 t : t \in neighbors P zs -> t != 0 by move=> vn; apply/eqP => e; have := nb_sign un vn vn; rewrite e oppr0 => /(_ erefl).
have [z' [zi s4 zp pp tri]] := prism_nb fP szs bP.
have [gs eG sy] := prism_group n trig (uniq_nb un) s4 n0 zi zp pp tri (nb_npar fP szs).
rewrite -en in eG sy; exact: (returns3 ordP rndP argsort_perm argsort_sorted trig fP ev eG sy (el _ (leqnn _))).
Qed.

Lemma rows_comb (B : 'M[F]_3) t : in_lattice B t <-> exists i j k, t = comb i j k (row 0 B) (row 1 B) (row 2%:R B).
Proof.
split=> [[x ->]|[i [j [k ->]]]].
  exists (x 0 0), (x 0 1), (x 0 2%:R); apply/rowP => l; rewrite /lattice_point /comb !mxE !big_ord_recl big_ord0 addr0 !mxE addrA.
  by congr (_ * B _ _ + _ * B _ _ + _ * B _ _); rewrite ?mxE; try congr ((x _ _)%:~R); exact: val_inj.
exists (\row_l nth 0 [:: i; j; k] l); apply/rowP => l; rewrite /lattice_point /comb !mxE !big_ord_recl big_ord0 addr0 !mxE addrA /=.
by congr (_ * B _ _ + _ * B _ _ + _ * B _ _); exact: val_inj.
Qed.
(* a basis of which the third vector is perpendicular to the other two *)
Lemma rows_prism (B : 'M[F]_3) : let u := row 0 B in let v := row 1 B in let z := row (2%:R : 'I_3) B in
  dot u v < 0 -> - dot u v < dot u u -> - dot u v < dot v v -> z != 0 -> dot u z = 0 -> dot v z = 0 -> prism B u v (- (u + v)) z.
Proof.
move=> u v z uv uu vv z0 uz vz; split=> //.
  split; rewrite // dotNr dotDr oppr_lt0; first by rewrite -ltr_subl_addr sub0r.
  by rewrite (dotC v u) addrC -ltr_subl_addr sub0r.
exact: rows_comb.
Qed.
Lemma crx0 u : npcross u 0 = 0. Proof. by have := crZr 0 u u; rewrite !scale0r. Qed.
Lemma cr0x u : npcross 0 u = 0. Proof. by have := crZl 0 u u; rewrite !scale0r. Qed.
(* every lattice with a basis vector perpendicular to the other two has such a basis, or an orthogonal one *)
Definition slab B u v z := [/\ npcross u v != 0, z != 0, dot u z = 0, dot v z = 0 & forall t, in_lattice B t <-> exists i j k, t = comb i j k u v z].
Lemma slabC B u v z : slab B u v z -> slab B v u z.
Proof.
move=> [c z0 uz vz h]; split=> //; first by rewrite cr_eq0C.
by move=> t; rewrite h; split=> -[i [j [k ->]]]; exists j, i, k; rewrite /comb [i%:~R *: _ + _]addrC.
Qed.
Lemma slabD B u v z : slab B u v z -> slab B u (v + u) z.
Proof.
move=> [c z0 uz vz h]; split=> //.
- by rewrite cr_eq0C crDl crxx addr0 cr_eq0C.
- by rewrite dotDl uz vz addr0.
move=> t; rewrite h; split=> -[i [j [k ->]]].
  exists (i - j), j, k; rewrite /comb scalerDr mulrzBr scalerBl; congr (_ + _); by rewrite [_ *: v + _]addrC addrA subrK.
exists (i + j), j, k; rewrite /comb scalerDr (intrD _ i j) scalerDl; congr (_ + _); by rewrite -addrA [_ *: u + _ *: v]addrC.
Qed.
Lemma reduced B z : row_free B -> forall p r, slab B (lattice_point B p) (lattice_point B r) z -> dot (lattice_point B p) (lattice_point B r) <= 0 ->
  (exists x y t, box B x y t) \/ exists u v w, prism B u v w z.
Proof.
move=> fB; apply: (lattice_ind fB rndP) => p IHp; apply: (lattice_ind fB rndP) => r IHr sl.
set u := lattice_point B p in IHp IHr sl *; set v := lattice_point B r in IHr sl *.
have [c z0 uz vz h] := sl.
have u0 : u != 0 by apply: contraNneq c => ->; rewrite cr0x.
have v0 : v != 0 by apply: contraNneq c => ->; rewrite crx0.
have up : 0 < q u by rewrite lt_def dot_eq0 u0 dot_ge0.
have vp : 0 < q v by rewrite lt_def dot_eq0 v0 dot_ge0.
rewrite le_eqVlt => /orP[/eqP uv|uv]; first by left; exists u, v, z.
have st (a b : 'rV[F]_3) : 0 < q a -> q a <= - dot a b -> q (b + a) < q b /\ dot a (b + a) <= 0.
  move=> a0 le; rewrite !dotDl !dotDr (dotC b a) -addrA gtr_addl; split; last by rewrite addrC -ler_subr_addr sub0r.
  rewrite -subr_gt0 sub0r; have le2 : dot a b + q a <= 0 by rewrite addrC -ler_subr_addr sub0r.
  rewrite oppr_gt0 -[0]addr0; apply: ltr_le_add => //; rewrite -oppr_gt0; exact: lt_le_trans a0 le.
have [le|lt] := lerP (q u) (- dot u v).
  have [h1 h2] := st _ _ up le.
  by apply: (IHr (r + p)); rewrite LD //; exact: slabD.
have [le|lt'] := lerP (q v) (- dot u v).
  rewrite dotC in le; have [h1 h2] := st _ _ vp le.
  by apply: (IHp (p + r) _ r); rewrite LD // -/u -/v; [apply: slabC; apply: slabD; exact: slabC | rewrite dotC].
right; exists u, v, (- (u + v)); split=> //; split; rewrite // dotNr dotDr oppr_lt0; first by rewrite -ltr_subl_addr sub0r.
by rewrite (dotC v u) addrC -ltr_subl_addr sub0r.
Qed.
Theorem C105_slab B P c : row_free B -> same_lattice B P -> dot (row 0 P) (row 2%:R P) = 0 -> dot (row 1 P) (row 2%:R P) = 0 ->
  4%:R / 3%:R < c ->
  exists f0, forall fuel tr ph generators, (f0 <= fuel)%N -> exists G, bravais fuel B c 0 tr ph generators = Some (Ok G).
Proof.
move=> fB sP uz vz c43; have fP := same_free sP fB.
have dep (a : 'rV[F]_3) : a *m P = 0 -> a = 0 by move=> e; apply: (row_free_inj fP); rewrite e mul0mx.
have r0 i : row i P != 0.
  by apply/eqP; rewrite rowE => /dep /rowP /(_ i); rewrite !mxE !eqxx => /eqP; rewrite oner_eq0.
pose u := row 0 P; pose v := row 1 P; pose z := row 2%:R P.
have lt t : in_lattice P t <-> exists i j k, t = comb i j k u v z by exact: rows_comb.
have cr0 : npcross u v != 0.
  apply/eqP => e; have := cr_cr u u v; rewrite e crx0 => /esym e'.
  have /dep /rowP /(_ 1) : (dot u v *: delta_mx 0 0 - q u *: delta_mx 0 1 : 'rV[F]_3) *m P = 0 by rewrite mulmxBl -!scalemxAl -!rowE.
  by rewrite !mxE /= mulr0 mulr1 sub0r => /eqP; rewrite oppr_eq0 dot_eq0 (negbTE (r0 _)).
have inB t : in_lattice P t -> in_lattice B t by exact: same_in_lattice.
have sl : slab B u v z.
  split=> //; first exact: r0.
  by move=> t; rewrite -lt; split; apply: same_in_lattice => //; exact: same_sym.
have inu : in_lattice B u by apply/inB/lt; exists 1, 0, 0; rewrite /comb scale1r !scale0r !addr0.
have inv : in_lattice B v by apply/inB/lt; exists 0, 1, 0; rewrite /comb scale1r !scale0r addr0 add0r.
have sgn : exists p r, slab B (lattice_point B p) (lattice_point B r) z /\ dot (lattice_point B p) (lattice_point B r) <= 0.
  have [[p ep] [r er]] := (inu, inv); have [le|/ltW le] := lerP (dot u v) 0; first by exists p, r; rewrite -ep -er.
  exists p, (- r); rewrite LN -ep -er dotNr oppr_le0; split=> //.
  case: sl => c0 z0 uz' vz' h; split=> //; first by rewrite crNr oppr_eq0.
    by rewrite dotNl vz' oppr0.
  move=> t; rewrite h; split=> -[i [j [k ->]]]; exists i, (- j), k; by rewrite /comb mulrNz scaleNr scalerN ?opprK.
have [p [r [sl' le]]] := sgn; have [[x [y [t bx]]]|[u' [v' [w' pr]]]] := reduced fB sl' le.
  exact: (C105_box ordP rndP near_refl argsort_perm argsort_sorted trig fB bx c43).
exact: (C105_prism fB pr c43).
Qed.
(* the half turn about the perpendicular vector is found *)
Theorem C105_axis B P c : row_free B -> same_lattice B P -> dot (row 0 P) (row 2%:R P) = 0 -> dot (row 1 P) (row 2%:R P) = 0 ->
  4%:R / 3%:R < c -> exists f0, forall fuel tr ph, (f0 <= fuel)%N -> exists G, bravais fuel B c 0 tr ph false = Some (Ok G) /\
    exists2 g, List.In g G & [/\ row 0 P *m (pR g)^T = - row 0 P, row 1 P *m (pR g)^T = - row 1 P & row 2%:R P *m (pR g)^T = row 2%:R P].
Proof.
move=> fB sP uz vz c43; have [f0 H] := C105_slab fB sP uz vz c43.
exists f0 => fuel tr ph lf; have [G EG] := H _ tr ph false lf; exists G; split=> //.
have fP := same_free sP fB; pose z := row 2%:R P.
have z0 : z != 0 by rewrite /z rowE mulmx_free_eq0 //; apply/eqP => /rowP /(_ 2%:R); rewrite !mxE !eqxx => /eqP; rewrite oner_eq0.
have [hu hv hz] : [/\ act (half z) (row 0 P) = - row 0 P, act (half z) (row 1 P) = - row 1 P & act (half z) z = z].
  by rewrite half_axis !half_perp // dotC.
have inv t : act (half z) (act (half z) t) = t by rewrite -act_mul half_sq // /act trmx1 mulmx1.
have one t : in_lattice P t -> in_lattice P (act (half z) t).
  move=> /rows_comb [i [j [k ->]]]; apply/rows_comb; exists (- i), (- j), k.
  by rewrite /comb !actD /act -!scalemxAl -!/(act (half z) _) hu hv hz !mulrNz !scaleNr !scalerN.
have pr : preserves B (half z).
  apply: (same_preserves sP) => t; split=> [|/one]; [exact: one | by rewrite inv].
have [order [[_ _ mem _] _]] := C105_group ordP rndP argsort_perm argsort_sorted trig fB EG.
suff [g gG eg] : exists2 g, List.In g G & pR g = half z by exists g => //; rewrite eg.
have : (half z, false, false) \in map (@PointGroups.pkey F 3 n) G by apply/mem; split; [split; [exact: half_orth | exact: pr] | split].
elim: G {EG mem} => //= g G IH; rewrite inE => /orP[/eqP h|/IH [g' gG gR]].
  by exists g; [left | exact: esym (congr1 (fun k => k.1.1) h)].
by exists g'; [right|].
Qed.
(* the hexagonal lattice *)
Definition hexagonal : 'M[F]_3 := \matrix_(i, j) nth 0 (nth [::] [:: [:: 2%:R; 0; 0]; [:: -1; Num.sqrt 3%:R; 0]; [:: 0; 0; 1]] i) j.
Example C105_hexagonal : row_free hexagonal /\ exists u v w z, prism hexagonal u v w z.
Proof.
have s3 : Num.sqrt 3%:R * Num.sqrt 3%:R = 3%:R :> F by rewrite -expr2 sqr_sqrtr ?ler0n.
have d (i j : 'I_3) : dot (row i hexagonal) (row j hexagonal) = hexagonal i 0 * hexagonal j 0 + hexagonal i 1 * hexagonal j 1 + hexagonal i 2%:R * hexagonal j 2%:R.
  by rewrite dot3 !mxE.
split.
  rewrite row_free_unit unitmxE unitfE; have -> : \det hexagonal = 2%:R * Num.sqrt 3%:R.
    rewrite det_trig; first by rewrite !big_ord_recl big_ord0 !mxE /= !mulr1.
    by apply/is_trig_mxP => -[[|[|[|]]] //= pi] [[|[|[|]]] //= pj] _; rewrite mxE.
  by rewrite mulf_neq0 ?pnatr_eq0 // gt_eqF // sqrtr_gt0 ltr0n.
exists (row 0 hexagonal), (row 1 hexagonal), (- (row 0 hexagonal + row 1 hexagonal)), (row (2%:R : 'I_3) hexagonal); apply: rows_prism; rewrite ?d ?mxE /= ?(mul0r, mulr0, addr0) //.
- by rewrite mulrN1 oppr_lt0 ltr0n.
- by rewrite mulrN1 opprK -natrM ltr_nat.
- by rewrite mulrN1 opprK mulrNN mulr1 s3 -(natrD _ 1 3) ltr_nat.
by apply/eqP => /rowP/(_ 2%:R); rewrite !mxE /= => /eqP; rewrite oner_eq0.
Qed.
End Prisms.
Print Assumptions C105_prism.
Print Assumptions C105_slab.
Print Assumptions C105_axis.
