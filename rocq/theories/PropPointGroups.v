(* C46: the predefined point groups; C87: the check of ph together with spin. *)
From mathcomp Require Import all_ssreflect all_algebra fingroup perm.
From mathcomp Require Import complex.
From Verif Require Import Prelude RingTac PySet GroupGen GroupGenProofs PGE PGEProofs PGEGroup GroupSpec.
From Verif Require Import Spin Factories PropFactories PointGroups.

Set Implicit Arguments.
Unset Strict Implicit.
Unset Printing Implicit Defensive.
Import Order.TTheory GRing.Theory Num.Theory.
Local Open Scope ring_scope.

(* ---- finite groups of matrices, given by a multiplication table ---- *)
Section Rep.
Variables (F : rcfType) (d : nat) (E : eqType) (rmul : E -> E -> E) (V gs : seq E) (e1 : E) (k : nat).
Variable mx : E -> 'M[F]_d.
Definition rep_ok : bool :=
  [&& uniq V, all (fun a => all (fun b => rmul a b \in V) V) V, all (fun a => a \in V) gs,
      all (fun a => a \in products rmul gs k) V, e1 \in V & all (fun a => has (fun b => rmul a b == e1) V) V].
Hypothesis ok : rep_ok.
Hypothesis mxM : forall a b, a \in V -> b \in V -> mx (rmul a b) = mx a *m mx b.
Hypothesis mxI : {in V &, injective mx}.
Hypothesis mx1 : mx e1 = 1%:M.

Lemma repP : let L := map mx V in let Rs := map mx gs in
  [/\ uniq L /\ size L = size V, 1%:M \in L, {subset Rs <= L},
      forall A B, A \in L -> B \in L -> A *m B \in L &
      (forall A, A \in L -> gen_by (@mulmx F d d d) (fun B => B \in Rs) A) /\ forall A, A \in L -> A \in unitmx].
Proof.
case/and5P: ok => u /allP cl /allP gV /allP pr /andP[eV /allP iv] L Rs.
split.
- by rewrite map_inj_in_uniq // size_map.
- by rewrite -mx1 map_f.
- by move=> A /mapP [a /gV aV ->]; apply: map_f.
- move=> A B /mapP [a aV ->] /mapP [b bV ->]; rewrite -mxM //; apply: map_f.
  by have /allP := cl a aV; apply.
split.
  move=> A /mapP [a /pr /products_gen ga ->].
  have inV x : gen_by rmul (fun y => y \in gs) x -> x \in V.
    by elim=> [y /gV //|y z _ yV _ zV]; have /allP := cl y yV; apply.
  apply: (gen_by_map (f := mx) _ _ ga) => [y yg|y z gy gz]; first exact: map_f.
  by rewrite mxM ?inV.
move=> A /mapP [a aV ->]; have /hasP [b bV /eqP ab] := iv a aV.
by have := mxM aV bV; rewrite ab mx1 => /esym /mulmx1_unit [].
Qed.
End Rep.

Section Finish.
Variables (F : rcfType) (d n : nat).
Variables (ord : forall d, seq (pge F d n) -> seq (pge F d n)) (fuel : nat).
Hypothesis o : forall d, enumeration (@ord d).

(* the spatial parts are L, the flags those of the requested time reversal and
   particle-hole factors; every combination occurs once *)
Definition point_group (tr ph : bool) (L : 'M[F]_d -> Prop) (order : nat) (G : seq (pge F d n)) : Prop :=
  [/\ uniq (map (@pkey F d n) G), size G = (order * 2 ^ tr * 2 ^ ph)%N,
      forall R c a, (R, c, a) \in map (@pkey F d n) G <-> L R /\ [/\ ~~ tr -> c = a & ~~ ph -> a = false] &
      forall g, List.In g G -> pstrict g = false].

Lemma finish_groupP tr ph Rs L (gens : seq (pge F d n)) :
  [/\ uniq L, 1%:M \in L, {subset Rs <= L}, forall A B, A \in L -> B \in L -> A *m B \in L &
     (forall A, A \in L -> gen_by (@mulmx F d d d) (fun B => B \in Rs) A) /\ forall A, A \in L -> A \in unitmx] ->
  map (@pkey F d n) gens = flag_keys tr ph Rs -> (forall g, List.In g gens -> pstrict g = false) ->
  (size L * 4 < fuel)%N ->
  exists2 G, finish_group ord fuel false (Ok gens) = Some (Ok G) &
    point_group tr ph (fun R => R \in L) (size L) G /\
    ((forall g, List.In g gens -> pU g = None) -> forall g, List.In g G -> pU g = None).
Proof.
case=> uL L1 RsL LM [Lgen Lu] keys ns fu.
have RL k : k \in flag_keys tr ph Rs -> (k.1.1 \in L) && flag_ok tr ph k.1.2 k.2.
  by move=> kk; apply/(flag_gen tr ph L1 RsL LM Lgen); apply: gen_base.
have ok g : List.In g gens -> plain g.
  move=> gg; have /RL /andP[/Lu u _] : pkey g \in flag_keys tr ph Rs by rewrite -keys; apply/In_keys; exists g.
  by rewrite /plain u ns.
have ok2 g : List.In g (set_of (@pge_eq F d n) gens) -> plain g by move=> gs; apply: ok; apply: In_set_of gs.
have gk k : gen_by (@kmul F d) (fun k => k \in map (@pkey F d n) (set_of (@pge_eq F d n) gens)) k <->
    (k.1.1 \in L) && flag_ok tr ph k.1.2 k.2.
  rewrite -(flag_gen tr ph L1 RsL LM Lgen); split; apply: gen_by_incl => x h;
  by apply: gen_base; move: h; rewrite (keys_set_of ok) keys.
pose K := [seq (R, x.1, x.2) | R <- L, x <- flags tr ph].
have KE k : (k \in K) = (k.1.1 \in L) && flag_ok tr ph k.1.2 k.2.
  apply/allpairsP/idP => [[[R x] /= [RL' + ->]]|/andP[kL kf]] /=.
    by rewrite mem_filter => /andP[-> _]; rewrite andbT.
  exists (k.1.1, (k.1.2, k.2)); split=> //; last by case: k {kL kf} => [[? ?] ?].
  by rewrite mem_filter /= kf; case: k.1.2 k.2 => [] [].
have uK : uniq K.
  apply: allpairs_uniq => //; first by rewrite filter_uniq.
  by move=> [R [c a]] [R' [c' a']] _ _ /= [-> -> ->].
have sK : size K = (size L * 2 ^ tr * 2 ^ ph)%N by rewrite size_allpairs size_flags mulnA.
have [||G EG] := @plain_terminates _ _ _ _ _ (@o d) ok2 fuel K.
  by move=> k /gk; rewrite KE.
- apply: leq_ltn_trans fu; rewrite sK -mulnA leq_mul2l; apply/orP; right.
  by case: (tr) (ph) => [] [].
exists G; first by rewrite /finish_group EG.
have [uG pG mG] := plain_group (@o d) ok2 EG.
split; first split=> //.
- rewrite -sK -(size_map (@pkey F d n)); apply: perm_size; apply: uniq_perm => // k.
  by rewrite KE; apply/idP/idP => [/mG /gk|/gk /mG].
- move=> R c a; rewrite mG gk /= /flag_ok; split=> [/andP[-> /andP[t p]]|[-> [t p]]].
    by split=> //; split; [case: (tr) t => //= /eqP|case: (ph) p => //= /negPf].
  by rewrite andTb; apply/andP; split; [case: (tr) t => //= ->|case: (ph) p => //= ->].
- by move=> g /pG /andP[_ /negPf].
- move=> nU g gG; have := generate_group_sound (@o d) EG gG.
  elim=> [x xs|x y _ ux _ uy] /=; first by apply: nU; apply: In_set_of xs.
  by rewrite ux.
Qed.

Lemma add_tr_phP tr ph (spin : option (spin_rep F n)) (gens : seq (pge F d n)) : exists T : pge F d n,
  [/\ add_tr_ph tr ph spin gens = Ok (gens ++ (if tr then [:: T] else [::]) ++ (if ph then [:: particle_hole d None] else [::])),
      pkey T = (1%:M, true, false), pstrict T = false & (spin = None -> pU T = None)].
Proof.
rewrite /add_tr_ph /time_reversal; case: spin => [s|] /=.
  exists (Pge 1%:M true false (Some (s 2%:R^-1 (vec3 0 1 0))) false); split=> //.
  by case: tr => /=; case: ph; rewrite -?cats1 ?cats0 -?catA.
exists (Pge 1%:M true false None false); split=> //.
by case: tr => /=; case: ph; rewrite -?cats1 ?cats0 -?catA.
Qed.
End Finish.

(* ---- signed permutation matrices ---- *)
Section Words.
Variables (T : eqType) (A : seq T).
Fixpoint words k : seq (seq T) := if k is k'.+1 then [seq x :: w | x <- A, w <- words k'] else [:: [::]].
Lemma mem_words k w : (w \in words k) = (size w == k) && all (fun x => x \in A) w.
Proof.
elim: k w => [|k IH] [|x w] //=; first by apply/allpairsP => -[[y v] /= [_ _]].
rewrite eqSS; apply/allpairsP/idP => [[[y v] /= [yA vw [-> ->]]]|].
  by rewrite yA /= -IH.
by move=> /and3P[sw xA aw]; exists (x, w); rewrite /= xA IH sw aw.
Qed.
End Words.

Definition srow := (nat * bool)%type.
Definition smul (a b : seq srow) : seq srow :=
  [seq ((nth (0%N, false) b x.1).1, x.2 (+) (nth (0%N, false) b x.1).2) | x <- a].
Definition sreps d : seq (seq srow) :=
  [seq r <- words [seq (i, e) | i <- iota 0 d, e <- [:: false; true]] d | uniq (map fst r)].

Section Signed.
Variables (F : rcfType) (d : nat).
Definition signed_perm (R : 'M[F]_d) : Prop :=
  exists (s : {perm 'I_d}) (e : 'I_d -> bool), R = \matrix_(i, j) if s i == j then (-1) ^+ e i else 0.

Definition smx (r : seq srow) : 'M[F]_d :=
  \matrix_(i, j) (let x := nth (0%N, false) r i in if x.1 == j then (-1) ^+ x.2 else 0).

Lemma srepsP r : r \in sreps d -> [/\ size r = d, forall i, (i < d)%N -> ((nth (0%N, false) r i).1 < d)%N & uniq (map fst r)].
Proof.
rewrite mem_filter mem_words => /and3P[u /eqP sz /allP ad]; split=> // i id.
have /ad /allpairsP [[j e] /= [jd _ ->]] : nth (0%N, false) r i \in r by rewrite mem_nth ?sz.
by move: jd; rewrite mem_iota.
Qed.

Lemma smxM a b : a \in sreps d -> b \in sreps d -> smx (smul a b) = smx a *m smx b.
Proof.
move=> /srepsP [sa la _] _; apply/matrixP => i j; rewrite !mxE.
have ad := la i (ltn_ord i); rewrite (bigD1 (Ordinal ad)) //= big1 => [|k].
  rewrite !mxE /= eqxx addr0 (nth_map (0%N, false)) ?sa //=.
  by case: eqP => _; rewrite ?mulr0 // signr_addb.
by rewrite -val_eqE /= eq_sym !mxE /= => /negPf ->; rewrite mul0r.
Qed.

Lemma sign_neq0 (e : bool) : (-1) ^+ e != 0 :> F.
Proof. by rewrite signr_eq0. Qed.

Lemma smxI : {in sreps d &, injective smx}.
Proof.
move=> a b /srepsP [sa la _] /srepsP [sb lb _] E.
apply: (@eq_from_nth _ (0%N, false)); first by rewrite sa sb.
rewrite sa => i id; have ad := la i id.
have := congr1 (fun M : 'M[F]_d => M (Ordinal id) (Ordinal ad)) E; rewrite !mxE /= eqxx.
case: eqP => [e1|_ /eqP]; last by rewrite signr_eq0.
move=> /eqP; rewrite (inj_eq signr_inj) => /eqP e2.
by rewrite [LHS]surjective_pairing [RHS]surjective_pairing e1 e2.
Qed.

Lemma smx_signed R : R \in map smx (sreps d) <-> signed_perm R.
Proof.
split=> [/mapP [r /srepsP [sr lr ur] ->]|[s [e ->]]].
  pose f (i : 'I_d) : 'I_d := Ordinal (lr i (ltn_ord i)).
  have fI : injective f.
    move=> i j /(congr1 val) /= E; apply: val_inj => /=.
    apply/eqP; rewrite -(@nth_uniq _ 0%N (map fst r)) ?size_map ?sr //.
    by rewrite !(nth_map (0%N, false)) ?sr // E.
  exists (perm fI), (fun i => (nth (0%N, false) r i).2).
  by apply/matrixP => i j; rewrite !mxE permE.
pose r : seq srow := [seq (val (s i), e i) | i <- enum 'I_d].
have nr (i : 'I_d) : nth (0%N, false) r i = (val (s i), e i).
  by rewrite (nth_map i) ?size_enum_ord // nth_ord_enum.
apply/mapP; exists r; last by apply/matrixP => i j; rewrite !mxE nr -val_eqE.
rewrite mem_filter mem_words size_map size_enum_ord eqxx; apply/andP; split.
  rewrite -map_comp map_inj_uniq ?enum_uniq // => i j /= /val_inj; exact: perm_inj.
apply/allP => x /mapP [i _ ->]; apply/allpairsP; exists (val (s i), e i) => /=.
by rewrite mem_iota /=; split=> //; case: (e i).
Qed.

Lemma smx1 : smx [seq (i, false) | i <- iota 0 d] = 1%:M.
Proof.
apply/matrixP => i j; rewrite !mxE (nth_map 0%N) ?size_iota // nth_iota //= add0n -val_eqE /=.
by case: eqP.
Qed.
End Signed.

Lemma square_rep : rep_ok smul (sreps 2) [:: [:: (0, true); (1, false)]; [:: (1, true); (0, false)]]%N
  [seq (i, false) | i <- iota 0 2] 4.
Proof. by vm_compute. Qed.
Lemma cubic_rep : rep_ok smul (sreps 3)
  [:: [:: (0, true); (1, true); (2, true)]; [:: (0, false); (2, true); (1, false)]; [:: (2, false); (0, false); (1, false)]]%N
  [seq (i, false) | i <- iota 0 3] 9.
Proof. by vm_compute. Qed.

(* the values of cosine and sine at the angles of the predefined groups, in turns *)
Record trig_table (F : rcfType) (cs sn : F -> F) : Prop := TrigTable {
  tr4 : cs 4%:R^-1 = 0 /\ sn 4%:R^-1 = 1;
  tr3 : cs 3%:R^-1 = - 2%:R^-1 /\ sn 3%:R^-1 = s3 F / 2%:R;
  tr2 : cs 2%:R^-1 = -1 /\ sn 2%:R^-1 = 0;
  tr6 : cs 6%:R^-1 = 2%:R^-1 /\ sn 6%:R^-1 = s3 F / 2%:R }.

Section Matrices.
Variable F : rcfType.
Let n2 : 2%:R != 0 :> F. Proof. by rewrite pnatr_eq0. Qed.
Let n3 : 3%:R != 0 :> F. Proof. by rewrite pnatr_eq0. Qed.

Lemma s3_sq : s3 F * s3 F = 3%:R.
Proof. by rewrite -expr2 sqr_sqrtr ?ler0n. Qed.
Lemma s3_neq0 : s3 F != 0.
Proof. by rewrite sqrtr_eq0 -ltNge ltr0n. Qed.

Lemma normalize1 (v : 'rV[F]_3) : dot v v = 1 -> normalize v = v.
Proof. by move=> e; rewrite /normalize normE e sqrtr1 invr1 scale1r. Qed.

Lemma ord3 (i : 'I_3) : [\/ i = 0, i = 1 | i = 2].
Proof. by case: i => [[|[|[|]]]] // p; [constructor 1|constructor 2|constructor 3]; apply: val_inj. Qed.

Lemma vec3E x y z : [/\ vec3 x y z 0 0 = x :> F, vec3 x y z 0 1 = y & vec3 x y z 0 2 = z].
Proof. by split; rewrite mxE. Qed.

Lemma rotation3_x c s : rotation3 c s (normalize (vec3 1 0 0)) =
  \matrix_(i, j) nth 0 (nth [::] [:: [:: 1; 0; 0]; [:: 0; c; - s]; [:: 0; s; c]] i) j :> 'M[F]_3.
Proof.
have [e0 e1 e2] := vec3E 1 0 0.
have uu : unitvec (vec3 1 0 0 : 'rV[F]_3) by rewrite /unitvec dot3 e0 e1 e2 !mulr0 !addr0 mulr1.
rewrite (normalize1 uu) /rotation3 cross_sq //.
by apply: mat3P; split; rewrite !(mxE, big_ord1) /= ?(mulr1n, mulr0n, mulr0, mul0r, mulr1, mul1r, oppr0, subrr, add0r, addr0, subr0, sub0r, mulrN1, opprB) // ?[1 + _]addrC ?subrK // addrC subrK.
Qed.

Lemma rotation3_z c s : rotation3 c s (normalize (vec3 0 0 1)) =
  \matrix_(i, j) nth 0 (nth [::] [:: [:: c; - s; 0]; [:: s; c; 0]; [:: 0; 0; 1]] i) j :> 'M[F]_3.
Proof.
have [e0 e1 e2] := vec3E 0 0 1.
have uu : unitvec (vec3 0 0 1 : 'rV[F]_3) by rewrite /unitvec dot3 e0 e1 e2 !mulr0 !add0r mulr1.
rewrite (normalize1 uu) /rotation3 cross_sq //.
by apply: mat3P; split; rewrite !(mxE, big_ord1) /= ?(mulr1n, mulr0n, mulr0, mul0r, mulr1, mul1r, oppr0, subrr, add0r, addr0, subr0, sub0r, mulrN1, opprB) // ?[1 + _]addrC ?subrK // addrC subrK.
Qed.

Lemma rotation3_111 : rotation3 (- 2%:R^-1) (s3 F / 2%:R) (normalize (vec3 1 1 1)) =
  \matrix_(i, j) nth 0 (nth [::] [:: [:: 0; 0; 1]; [:: 1; 0; 0]; [:: 0; 1; 0]] i) j :> 'M[F]_3.
Proof.
set v : 'rV[F]_3 := vec3 1 1 1; have [e0 e1 e2] := vec3E 1 1 1.
have vv : dot v v = 3%:R by rewrite dot3 e0 e1 e2 mulr1 -[RHS]/(1 *+ 3) !mulrS mulr0n addr0 addrA.
have v0 : v != 0 by rewrite -dot_eq0 vv.
have nv : norm v = s3 F by rewrite normE vv.
have uu := normalize_unit v0; rewrite /rotation3 (cross_sq uu).
have u i : normalize v 0 i = (s3 F)^-1.
  by rewrite /normalize nv mxE; case: (ord3 i) => ->; rewrite ?e0 ?e1 ?e2 mulr1.
have w : (s3 F)^-1 * (s3 F)^-1 = 3%:R^-1 by rewrite -invfM s3_sq.
have h : 1 - - 2%:R^-1 = 3%:R / 2%:R :> F by rewrite opprK -{1}(divff n2) -{2}[2%:R^-1]mul1r -mulrDl -(natrD _ 2 1).
have sw : s3 F / 2%:R / s3 F = 2%:R^-1 by rewrite mulrAC divff ?s3_neq0 ?mul1r.
have hw : 3%:R / 2%:R / 3%:R = 2%:R^-1 :> F by rewrite mulrAC divff ?mul1r.
have hh : 2%:R^-1 + 2%:R^-1 = 1 :> F by rewrite -mulr2n -[LHS]mulr_natr mulVf.
have hd : 1 + 3%:R / 2%:R * (3%:R^-1 - 1) = 0 :> F.
  rewrite mulrBr hw mulr1 addrA addrAC -h opprK opprD addrA subrr add0r; exact: addNr.
move: (normalize v) u {uu} => x u.
by apply: mat3P; split; rewrite !(mxE, big_ord1) /= !u w h ?(mulr1n, mulr0n, mulr0, subr0, addr0, add0r, mulrN, sw, hw, hh, hd, addNr).
Qed.
End Matrices.

Section Cubic.
Variables (F : rcfType) (n : nat) (cs sn : F -> F).
Variables (ord : forall d, seq (pge F d n) -> seq (pge F d n)) (fuel : nat).
Hypothesis o : forall d, enumeration (@ord d).
Hypothesis trig : trig_table cs sn.
Implicit Types (tr ph : bool) (spin : option (spin_rep F n)).
Local Notation no_U G := (forall g, List.In g G -> pU g = None).

Lemma group_ext d tr ph (L L' : 'M[F]_d -> Prop) m (G : seq (pge F d n)) :
  (forall R, L R <-> L' R) -> point_group tr ph L m G -> point_group tr ph L' m G.
Proof. by move=> LL [u s m' p]; split=> // R c a; rewrite m' LL. Qed.

Lemma flag_keysE d tr ph (gens : seq (pge F d n)) Rs (T : pge F d n) :
  map (@pkey F d n) gens = [seq (R, false, false) | R <- Rs] -> pkey T = (1%:M, true, false) ->
  map (@pkey F d n) (gens ++ (if tr then [:: T] else [::]) ++ (if ph then [:: particle_hole d None] else [::])) = flag_keys tr ph Rs.
Proof. by move=> e1 e2; rewrite !map_cat e1 /flag_keys; case: tr; case: ph; rewrite //= ?e2. Qed.

Lemma In_flags d tr ph (P : pge F d n -> Prop) (gens : seq (pge F d n)) (T : pge F d n) :
  (forall g, List.In g gens -> P g) -> P T -> P (particle_hole d None) ->
  forall g, List.In g (gens ++ (if tr then [:: T] else [::]) ++ (if ph then [:: particle_hole d None] else [::])) -> P g.
Proof.
by move=> Pg PT PP g /In_cat [/Pg //|/In_cat []]; [case: tr|case: ph] => //= -[<-|].
Qed.

(* the shared final step *)
Lemma finish_rep d tr ph (spin : option (spin_rep F n)) (gens : seq (pge F d n)) Rs L m :
  [/\ uniq L /\ size L = m, 1%:M \in L, {subset Rs <= L}, forall A B, A \in L -> B \in L -> A *m B \in L &
     (forall A, A \in L -> gen_by (@mulmx F d d d) (fun B => B \in Rs) A) /\ forall A, A \in L -> A \in unitmx] ->
  map (@pkey F d n) gens = [seq (R, false, false) | R <- Rs] -> (forall g, List.In g gens -> pstrict g = false) ->
  (spin = None -> no_U gens) -> (m * 4 < fuel)%N ->
  exists2 G, finish_group ord fuel false (add_tr_ph tr ph spin gens) = Some (Ok G) &
    point_group tr ph (fun R => R \in L) m G /\ (spin = None -> no_U G).
Proof.
move=> [[uL sL] L1 RsL LM Lgen] keys ns nU fu.
have [T [-> kT sT UT]] := add_tr_phP tr ph spin gens.
have [|||G EG [PG UG]] := @finish_groupP F d n ord fuel o tr ph Rs L _ _ (flag_keysE tr ph keys kT).
- by [].
- exact: (In_flags (P := fun g => pstrict g = false)).
- by rewrite sL.
exists G => //; split; first by rewrite -sL.
by move=> sp; apply: UG; apply: (In_flags (P := fun g => pU g = None)) => //; [apply: nU|apply: UT].
Qed.

Lemma mirror_x spin : exists U, mirror (\row_i nth 0 [:: 1; 0] i) None spin =
    Ok (Pge (smx F 2 [:: (0, true); (1, false)]%N) false false U false) /\ (spin = None -> U = None).
Proof.
have uu : dot (\row_i nth 0 [:: 1; 0] i) (\row_i nth 0 [:: 1; 0] i : 'rV[F]_2) = 1.
  by rewrite /dot !big_ord_recr big_ord0 /= !mxE /= mulr0 mulr1 addr0 add0r.
rewrite /mirror /normalize normE uu sqrtr1 invr1 scale1r.
have -> : reflection (\row_i nth 0 [:: 1; 0] i) = smx F 2 [:: (0, true); (1, false)]%N.
  apply/matrixP => i j; rewrite !mxE big_ord1 !mxE.
  case: i => [[|[|]]] // ip; case: j => [[|[|]]] //= jp;
  by rewrite ?(mulr1n, mulr0n, mulr0, mulr1, mul0r, subr0) // expr1 mulr2n opprD addrA subrr add0r.
by case: spin => [s|] /=; eexists; split.
Qed.

Theorem C46_square tr ph spin : ph && isSome spin = false -> (32 < fuel)%N ->
  exists2 G, square cs sn ord fuel tr ph false spin = Some (Ok G) &
    point_group tr ph (@signed_perm F 2) 8 G /\ (spin = None -> no_U G).
Proof.
move=> chk fu; have [U [EM UN]] := mirror_x spin.
have [[c4 s4] _ _ _] := trig.
have [V [EC VN]] : exists V, rotation_2d cs sn 4%:R^-1 None spin =
    Ok (Pge (smx F 2 [:: (1, true); (0, false)]%N) false false V false) /\ (spin = None -> V = None).
  rewrite /rotation_2d c4 s4; have -> : rotation2 0 1 = smx F 2 [:: (1, true); (0, false)]%N.
    by apply/matrixP => i j; rewrite !mxE; case: i => [[|[|]]] // ip; case: j => [[|[|]]] //= jp.
  by case: (spin) => [s|] /=; eexists; split.
rewrite /square /square_gens; have -> : ph && (if spin is Some _ then true else false) = false by case: (spin) chk.
rewrite EM /= EC /=.
have := repP square_rep (@smxM F 2) (@smxI F 2) (smx1 F 2); rewrite (_ : size (sreps 2) = 8%N) // => rp.
set gens := [:: _; _].
have [||||G EG [PG UG]] := @finish_rep 2 tr ph spin gens _ _ 8 rp.
- exact: erefl.
- by move=> g [<-|[<-|]].
- by move=> sp g [<-|[<-|]] //=; [apply: UN|apply: VN].
- by [].
exists G => //; split=> //; exact: group_ext (@smx_signed F 2) PG.
Qed.

Theorem C46_cubic tr ph spin : ph && isSome spin = false -> (192 < fuel)%N ->
  exists2 G, cubic cs sn ord fuel tr ph false spin = Some (Ok G) &
    point_group tr ph (@signed_perm F 3) 48 G /\ (spin = None -> no_U G).
Proof.
move=> chk fu; have [[c4 s4] [c3 s3] _ _] := trig.
have [U [EM UN]] : exists U, inversion_spin spin = Pge (smx F 3 [:: (0, true); (1, true); (2, true)]%N) false false U false
    /\ (spin = None -> U = None).
  rewrite /inversion_spin /inversion; have -> : - 1%:M = smx F 3 [:: (0, true); (1, true); (2, true)]%N.
    by apply: mat3P; split; rewrite !mxE /= ?mulr1n ?mulr0n ?oppr0 ?expr1.
  by case: (spin) => [s|]; eexists; split.
have [V [EC VN]] : exists V, rotation_3d cs sn 4%:R^-1 (vec3 1 0 0) false None spin =
    Ok (Pge (smx F 3 [:: (0, false); (2, true); (1, false)]%N) false false V false) /\ (spin = None -> V = None).
  rewrite /rotation_3d c4 s4 rotation3_x scale1r.
  have -> : \matrix_(i, j) nth 0 (nth [::] [:: [:: 1; 0; 0]; [:: 0; 0; - 1]; [:: 0; 1; 0]] i) j =
      smx F 3 [:: (0, false); (2, true); (1, false)]%N.
    by apply: mat3P; split; rewrite !mxE.
  by case: (spin) => [s|] /=; eexists; split.
have [W [ED WN]] : exists W, rotation_3d cs sn 3%:R^-1 (vec3 1 1 1) false None spin =
    Ok (Pge (smx F 3 [:: (2, false); (0, false); (1, false)]%N) false false W false) /\ (spin = None -> W = None).
  rewrite /rotation_3d c3 s3 rotation3_111 scale1r.
  have -> : \matrix_(i, j) nth 0 (nth [::] [:: [:: 0; 0; 1]; [:: 1; 0; 0]; [:: 0; 1; 0]] i) j =
      smx F 3 [:: (2, false); (0, false); (1, false)]%N.
    by apply: mat3P; split; rewrite !mxE.
  by case: (spin) => [s|] /=; eexists; split.
rewrite /cubic /cubic_gens; have -> : ph && (if spin is Some _ then true else false) = false by case: (spin) chk.
rewrite EC /= ED /= EM.
have := repP cubic_rep (@smxM F 3) (@smxI F 3) (smx1 F 3); rewrite (_ : size (sreps 3) = 48%N) // => rp.
set gens := [:: _; _; _].
have [||||G EG [PG UG]] := @finish_rep 3 tr ph spin gens _ _ 48 rp.
- exact: erefl.
- by move=> g [<-|[<-|[<-|]]].
- by move=> sp g [<-|[<-|[<-|]]] //=; [apply: UN|apply: VN|apply: WN].
- by [].
exists G => //; split=> //; exact: group_ext (@smx_signed F 3) PG.
Qed.
End Cubic.
