(* C01, C04-C08, C11 (exact part): group theory algorithms of qsymm/groups.py and the
   pruning loop of qsymm/symmetry_finder.py. *)
From mathcomp Require Import all_ssreflect all_algebra.
From mathcomp Require Import complex.
From Verif Require Import Prelude PySet GroupGen GroupGenProofs SubgroupProofs
  DiscSymProofs PGE PGEProofs PGEGroup GroupSpec.

Set Implicit Arguments.
Unset Strict Implicit.
Unset Printing Implicit Defensive.

Section Generic.
Variables (T : Type) (eqb : rel T) (mul : T -> T -> T) (ord : seq T -> seq T).
Local Notation inset := (inset eqb).
Local Notation closed := (closed eqb mul).
Local Notation included := (included eqb).
Local Notation is_product := (is_product eqb mul).

(* C04: if the products of the generators take finitely many values (all found
   in the list L), generate_group terminates; and whenever it returns, it returns
   exactly the set of products, without repetitions. *)
Theorem C04_generate_group_terminates (gens L : seq T) (fuel : nat) :
  semigroup_laws eqb mul -> enumeration ord ->
  (forall x, is_product gens x -> inset L x) ->
  (size L < fuel)%N ->
  exists G, generate_group eqb mul ord fuel gens = Some G.
Proof.
case=> r s t m a o cover; apply: generate_group_terminates => // x gx.
by apply/insetP/cover; exists x.
Qed.

Theorem C04_generate_group_exact (gens G : seq T) (fuel : nat) :
  semigroup_laws eqb mul -> enumeration ord ->
  generate_group eqb mul ord fuel gens = Some G ->
  [/\ forall x, inset G x <-> is_product gens x,
      included gens G, closed G, no_repeats eqb G &
      forall S, included gens S -> closed S -> included G S].
Proof.
case=> r s t m a o H; have E x := generate_group_mem r s t m a o H x; split.
- by move=> x; rewrite (rwP (insetP eqb G x)) E.
- move=> x [y gy xy]; apply/insetP/E; exists y => //; exact: gen_base.
- move=> x y /insetP Gx /insetP Gy; apply/insetP.
  exact: (generate_group_closed r s t m a o H).
- apply: no_repeatsP; exact: (generate_group_wf s H).
- move=> S gS cS x /insetP Gx; apply/insetP.
  apply: (generate_group_least r s t m a o H) Gx => [y /insetP /gS /insetP // |y z].
  by move=> /insetP Sy /insetP Sz; apply/insetP/cS.
Qed.

(* C04/C05: with at least one generator the result is a group *)
Theorem C05_generate_group_is_group (gens G : seq T) (fuel : nat) e inv :
  group_laws eqb mul e inv -> enumeration ord ->
  generate_group eqb mul ord fuel gens = Some G -> gens <> [::] ->
  [/\ inset G e, closed G & forall x, inset G x -> inset G (inv x)].
Proof.
case=> [[r s t m a] m1 mV] o H ne; split.
- case: gens ne H => // g gs _ H.
  apply/insetP/(generate_group_identity r s t m a o m1 mV H (g := g)).
  by rewrite /set_mem /= r.
- by have [] := C04_generate_group_exact (SemigroupLaws r s t m a) o H.
- move=> x /insetP Gx; apply/insetP.
  exact: (generate_group_inv r s t m a o m1 mV H).
Qed.

(* C05 as stated includes the empty generator set, for which it fails: the
   empty set is returned, which is not a group. *)
Theorem C05_generate_group_empty_refuted (e : T) (fuel : nat) :
  enumeration ord -> (0 < fuel)%N ->
  exists gens G, generate_group eqb mul ord fuel gens = Some G /\ ~ inset G e.
Proof.
move=> o; case: fuel => // f _; exists [::], [::]; split; last by case.
rewrite /generate_group /=.
have -> : ord [::] = [::] by case E: (ord [::]) => [//|x s]; case: (proj1 (o [::] x)); rewrite E; left.
by [].
Qed.

Section Subgroups.
Variables (e : T) (inv : T -> T) (G : seq T).
Hypothesis GL : group_laws eqb mul e inv.
Hypothesis Hord : enumeration ord.
(* G is a finite group, given as a Python set *)
Hypothesis Gwf : set_wf eqb G.
Hypothesis Gne : G <> [::].
Hypothesis Gcl : closed G.

Let Gcl' a b : set_mem eqb G a -> set_mem eqb G b -> set_mem eqb G (mul a b).
Proof. by move=> /insetP Ga /insetP Gb; apply/insetP/Gcl. Qed.

(* C06 *)
Theorem C06_generate_subgroups_exact (fuel gf : nat) :
  (size G < fuel)%N -> (size G < gf)%N ->
  exists D, [/\ generate_subgroups eqb mul ord fuel gf G = Some D,
    (* every key is a subgroup, generated by the associated generators *)
    forall K gens, List.In (K, gens) D ->
      [/\ subgroup eqb mul e inv K G, no_repeats eqb K &
          forall x, inset K x <-> is_product gens x],
    (* every subgroup is a key *)
    forall H, subgroup eqb mul e inv H G ->
      exists K gens, List.In (K, gens) D /\ same_set eqb K H &
    (* no two entries have the same key *)
    forall i j kv, i < j < size D -> ~ same_set eqb (nth kv D i).1 (nth kv D j).1].
Proof.
case: GL => [[r s t m a] m1 mV] lt1 lt2.
have [D HD] := generate_subgroups_total r s t m a Hord Gcl' lt2 lt1.
exists D; split=> //.
- move=> K gens /(subgroups_sound r s t m a Hord Gwf Gcl' HD) [Kwf KG Kcl Kne Kgen].
  have K0 : exists x, set_mem eqb K x.
    by case: K Kne {Kwf KG Kcl Kgen} => // x K _; exists x; rewrite /set_mem /= r.
  have Kin := finite_closed_has_inv r s t m a m1 mV Kcl.
  have Ke : set_mem eqb K e by case: K0 => x /(finite_closed_has_e r s t m a m1 mV Kcl).
  split; last by move=> x; rewrite (rwP (insetP eqb K x)) Kgen.
    split.
    + by move=> x /insetP Kx; apply/insetP/KG.
    + exact/insetP.
    + by move=> x y /insetP Kx /insetP Ky; apply/insetP/Kcl.
    + by move=> x /insetP Kx; apply/insetP/Kin.
  exact: no_repeatsP.
- move=> H [HG He Hcl _].
  have [|x /insetP Hx|x y /insetP Hx /insetP Hy|K [gens [KD KH]]] :=
     subgroups_complete r s t m a Hord Gwf Gcl' (H := H) HD.
  + by case: H He {HG Hcl} => // -[].
  + exact/insetP/HG.
  + exact/insetP/Hcl.
  exists K, gens; split=> // x.
  by rewrite (rwP (insetP eqb K x)) KH -(rwP (insetP eqb H x)).
- move=> i j kv /andP[ij jD] same.
  have := subgroups_distinct r s t m a Hord Gwf Gcl' HD.
  elim: D i j ij jD {HD} same => // kv0 D IH [|i] [|j] //= ij jD same [nh dD].
    case/negP: nh; apply/hasIn; exists (nth kv D j); first exact: nth_In.
    by apply/set_eqP => // x; apply/insetP/insetP => /same.
  exact: IH same dD.
Qed.

(* C07 *)
Theorem C07_generate_subgroups_minimal (fuel gf : nat) D K gens w :
  generate_subgroups eqb mul ord fuel gf G = Some D ->
  List.In (K, gens) D ->
  (forall x, inset K x <-> is_product w x) ->
  size gens <= size w.
Proof.
case: GL => [[r s t m a] m1 mV] HD KD Kw.
apply: (subgroups_minimal r s t m a Hord Gwf Gcl' HD KD) => x.
by rewrite -(rwP (insetP eqb K x)) Kw.
Qed.
End Subgroups.

Section DiscreteSymmetries.
Variables (e : T) (inv : T -> T).
Hypothesis GL : group_laws eqb mul e inv.
Hypothesis Hord : enumeration ord.
Variables (pick : T -> seq T -> T) (find : T -> option T) (check : pred T) (ident : T -> T).
(* the next candidate examined is some remaining candidate (any order) *)
Hypothesis pickP : forall c s, List.In c s -> List.In (pick c s) s.
(* g.identity() is the unit *)
Hypothesis identP : forall c, eqb (ident c) e.
(* [Sym g]: g is a symmetry; the symmetries form a subgroup *)
Variable Sym : T -> Prop.
Hypothesis Sym_eqb : forall x y, eqb x y -> Sym x -> Sym y.
Hypothesis Sym_mul : forall x y, Sym x -> Sym y -> Sym (mul x y).
Hypothesis Sym_inv : forall x, Sym x -> Sym (inv x).
Hypothesis Sym_e : Sym e.
(* the search for the unitary part of a single candidate is correct *)
Hypothesis findS : forall g gr, find g = Some gr -> [/\ eqb gr g, Sym g & check gr].
Hypothesis findN : forall g, find g = None -> ~ Sym g.

(* C08: the returned group consists of the products of symmetric candidates
   (and the unit), the returned generators are symmetric candidates with their
   unitary part and generate it, and a candidate is in the result iff it is
   symmetric.  L is any finite closed set containing the candidates. *)
Theorem C08_discrete_symmetries_exact (candidates L : seq T) (fuel gf : nat) :
  candidates <> [::] -> included candidates L -> closed L ->
  (size candidates <= fuel)%N -> (size L < gf)%N ->
  exists symset genset,
    [/\ discrete_symmetries eqb mul ord inv pick find check fuel gf ident candidates
          = Some (Ok (symset, genset)),
        forall x, inset candidates x -> (inset symset x <-> Sym x),
        forall x, inset symset x <->
           eqb x e \/ (exists2 y, gen_by mul (fun z => inset candidates z /\ Sym z) y & eqb x y),
        forall x, inset symset x <-> eqb x e \/ is_product genset x &
        (forall x, List.In x genset -> Sym x /\ exists g, inset candidates g /\ find g = Some x) /\
        (forall x, List.In x symset -> (exists c, x = ident c) \/
           gen_by mul (fun y => exists g, inset candidates g /\ find g = Some y) x)].
Proof.
case: GL => [[r s t m a] m1 mV] ne cL Lcl lt1 lt2.
have cL' x : set_mem eqb candidates x -> set_mem eqb L x.
  by move=> /insetP cx; apply/insetP/cL.
have Lcl' x y : set_mem eqb L x -> set_mem eqb L y -> set_mem eqb L (mul x y).
  by move=> /insetP Lx /insetP Ly; apply/insetP/Lcl.
have ne' : (0 < size candidates)%N by case: (candidates) ne.
have [symset [genset [E H1 H2 [H3 H4] H5]]] :=
  discrete_symmetries_spec r s t m a Hord m1 mV pickP identP Sym_eqb Sym_mul Sym_inv Sym_e
    findS findN cL' Lcl' ne' lt1 lt2.
have fnd x : List.In x genset -> exists g, inset candidates g /\ find g = Some x.
  by case/H5 => -[g [/insetP ? ?]] _; exists g.
exists symset, genset; split=> //.
- by move=> x /insetP /H1 <-; rewrite (rwP (insetP eqb symset x)).
- move=> x; rewrite (rwP (insetP eqb symset x)) H2; split; case.
  + by left.
  + case=> y gy xy; right.
    suff [z gz yz] : exists2 z, gen_by mul (fun z => inset candidates z /\ Sym z) z & eqb y z.
      by exists z => //; apply: t xy yz.
    elim: gy {xy} => [z /fnd [g [cg /findS [zg Sg _]]]|u v _ [u' gu uu'] _ [v' gv vv']].
      by exists g => //; apply: gen_base.
    by exists (mul u' v'); [apply: gen_mul | apply: m].
  + by left.
  + case=> y gy xy.
    have symE u v : eqb u v -> eqb v e \/ genE eqb mul genset v -> eqb u e \/ genE eqb mul genset u.
      by move=> uv [?|[w gw vw]]; [left; apply: t uv _ | right; exists w => //; apply: t uv _].
    apply: symE xy _.
    have cls u v : eqb u e \/ genE eqb mul genset u -> eqb v e \/ genE eqb mul genset v ->
       eqb (mul u v) e \/ genE eqb mul genset (mul u v).
      move=> [ue|[u' gu uu']] [ve|[v' gv vv']].
      * by left; apply: (t (mul e e)); [apply: m | apply: m1].
      * right; exists v' => //; apply: (t (mul e v)); first by apply: m.
        by apply: t (m1 v) _.
      * right; exists u' => //; apply: (t (mul u' e)); first by apply: m.
        exact: (mulx1 r s t m a m1 mV).
      * by right; exists (mul u' v'); [apply: gen_mul | apply: m].
    elim: gy => [z [cz Sz]|u v _ Hu _ Hv]; last exact: cls.
    by apply/H2/H1 => //; apply/insetP.
- by move=> x; rewrite (rwP (insetP eqb symset x)) H2.
- split; first by move=> x gx; split; [case: (H5 _ gx) | apply: fnd].
  move=> x /H4 [?|gx]; [by left | right].
  apply: gen_by_incl gx => y [g [/insetP cg fg]].
  by apply: gen_base; exists g.
Qed.
End DiscreteSymmetries.

(* C08, boundary case: an empty candidate set raises StopIteration instead of
   returning the trivial group. *)
Theorem C08_empty_candidates_refuted inv pick find check fuel gf (ident : T -> T) :
  exists candidates,
    discrete_symmetries eqb mul ord inv pick find check fuel gf ident candidates
    = Some (Err StopIteration).
Proof. by exists [::]. Qed.
End Generic.

(* ---- Point group elements ---- *)
Section Elements.
Import GRing.Theory Num.Theory.
Local Open Scope ring_scope.
Variables (F : rcfType) (d n : nat).
Local Notation pge := (pge F d n).

(* C01: pge_wf = invertible R and (if present) unitary U;
   pge_same = R, conjugate, antisymmetry and U all equal. *)
Theorem C01_pge_group (g h k : pge) :
  pge_wf g -> pge_wf h -> pge_wf k ->
  [/\ pge_same (pge_mul g (pge_mul h k)) (pge_mul (pge_mul g h) k),
      pge_same (pge_mul (pge_identity g) g) g /\ pge_same (pge_mul g (pge_identity g)) g,
      pge_same (pge_mul (pge_inv g) g) (pge_identity g) /\
        pge_same (pge_mul g (pge_inv g)) (pge_identity g),
      [/\ pge_wf (pge_mul g h), pge_wf (pge_inv g) & pge_wf (pge_identity g)] &
      (pU (pge_mul g h) = None <-> pU g = None \/ pU h = None)].
Proof.
move=> wg wh wk; split.
- by rewrite pge_mulA.
- by split; [apply: pge_mul1g | apply: pge_mulg1].
- by split; [apply: pge_mulVg | apply: pge_mulgV].
- by split; [apply: pge_wf_mul | apply: pge_wf_inv | apply: pge_wf_id].
- rewrite /=; case: (pU g) (pU h) => [U|] [V|]; split=> //; by [case | left | right].
Qed.

Theorem C01_pge_powers (g : pge) (k l : int) :
  pge_wf g ->
  [/\ pge_same (pge_pow g 0) (pge_identity g), pge_same (pge_pow g 1) g,
      pge_same (pge_pow g (-1)) (pge_inv g) &
      pge_same (pge_mul (pge_pow g k) (pge_pow g l)) (pge_pow g (k + l))].
Proof.
move=> wg; split=> //; last exact: pge_powD.
  exact: pge_mul1g.
have := pge_mul1g (pge_inv g); rewrite (identity_hasU (hasU_inv g)).
by [].
Qed.

(* The unit computed by identity() and elements with equal data are == *)
Theorem C01_pge_inverse_unique (g h : pge) :
  pge_wf g -> pge_wf h -> isSome (pU g) = isSome (pU h) ->
  pge_same (pge_mul g h) (pge_identity g) -> pge_same h (pge_inv g).
Proof.
move=> wg wh UE H.
have H1 := pge_same_mul (pge_same_refl (pge_inv g)) H.
rewrite pge_mulA in H1.
have H2 : pge_same (pge_mul (pge_identity g) h) h.
  by rewrite (identity_hasU UE); apply: pge_mul1g.
apply: pge_same_trans (pge_same_sym H2) _.
apply: pge_same_trans (pge_same_mul (pge_same_sym (pge_mulVg wg)) (pge_same_refl h)) _.
apply: pge_same_trans H1 _.
by rewrite -(identity_hasU (hasU_inv g)); apply: pge_mulg1.
Qed.

(* C11 in exact arithmetic: equality is an equivalence relation when none of the
   elements has _strict_eq, and when all of them have it and have unitary U. *)
Theorem C11_eq_equivalence_default (g h k : pge) :
  ~~ pstrict g -> ~~ pstrict h -> ~~ pstrict k ->
  [/\ pge_eq g g, pge_eq g h = pge_eq h g, pge_eq g h -> pge_eq h k -> pge_eq g k &
      pge_eq g h <-> [/\ pR g = pR h, pconj g = pconj h & panti g = panti h]].
Proof.
move=> sg sh sk; split.
- exact/pge_eq_nonstrict.
- by apply/pge_eq_nonstrict/pge_eq_nonstrict => // -[? ? ?]; split.
- move=> /pge_eq_nonstrict [] // ??? /pge_eq_nonstrict [] // ???.
  by apply/pge_eq_nonstrict => //; split; congruence.
- by split=> /pge_eq_nonstrict; apply.
Qed.

Theorem C11_eq_equivalence_strict (g h k : pge) U V W :
  pstrict g -> pstrict h -> pstrict k ->
  pU g = Some U -> pU h = Some V -> pU k = Some W ->
  unitarymx U -> unitarymx V -> unitarymx W ->
  [/\ pge_eq g g, pge_eq g h = pge_eq h g, pge_eq g h -> pge_eq h k -> pge_eq g k &
      pge_eq g h <-> [/\ pR g = pR h, pconj g = pconj h, panti g = panti h &
                         exists2 c, `|c| = 1 & V = c *: U]].
Proof.
move=> sg sh sk gU hV kW uU uV uW.
have Egh := pge_eq_strict gU hV uU; have Ehg := pge_eq_strict hV gU uV.
have Ehk := pge_eq_strict hV kW uV; have Egk := pge_eq_strict gU kW uU.
split.
- by apply/(pge_eq_strict gU gU uU); rewrite ?sg //; split=> //; apply: phase_eq_refl.
- by apply/Egh/Ehg; rewrite ?sg ?sh // => -[[? ? ?] /phase_eq_sym ?]; do 2 split=> //.
- move=> /Egh; rewrite sg => /(_ isT) [[???] P1] /Ehk; rewrite sh => /(_ isT) [[???] P2].
  apply/Egk; rewrite ?sg //; split; first by split; congruence.
  exact: phase_eq_trans P1 P2.
- split=> [/Egh|[? ? ? ?]]; first by rewrite sg => /(_ isT) [[? ? ?] ?].
  by apply/Egh; rewrite ?sg.
Qed.

(* With mixed flags == is not transitive, even in exact arithmetic. *)
Theorem C11_eq_transitive_mixed_flags_refuted :
  exists g h k : pge,
    [/\ pge_wf g, pge_wf h & pge_wf k] /\ [/\ pge_eq g h, pge_eq h k & ~~ pge_eq g k].
Proof.
exists (Pge 1%:M false false (Some 1%:M) true), (Pge 1%:M false false (Some 1%:M) false),
  (Pge 1%:M false false None false); split.
  by split; split; rewrite /= ?unitmx1 //; apply: unitary1.
split.
- apply/pge_eq_strict; try by [].
    exact: unitary1.
  by split=> //; apply: phase_eq_refl.
- exact/pge_eq_nonstrict.
- by rewrite /pge_eq /= !eqxx.
Qed.

(* ---- the group algorithms on point group elements ---- *)
Lemma npge_semigroup_laws : semigroup_laws (@npge_eq F d n) (@npge_mul F d n).
Proof.
split; [exact: npge_refl | exact: npge_sym | exact: npge_trans |
        exact: npge_eq_mul | exact: npge_mulA].
Qed.
Lemma npge_group_laws :
  group_laws (@npge_eq F d n) (@npge_mul F d n) (npge_one F d n) (@npge_inv F d n).
Proof. by split; [exact: npge_semigroup_laws | exact: npge_mul1 | exact: npge_mulV]. Qed.
Lemma spge_semigroup_laws : semigroup_laws (@spge_eq F d n) (@spge_mul F d n).
Proof.
split; [exact: spge_refl | exact: spge_sym | exact: spge_trans |
        exact: spge_eq_mul | exact: spge_mulA].
Qed.
Lemma spge_group_laws :
  group_laws (@spge_eq F d n) (@spge_mul F d n) (spge_one F d n) (@spge_inv F d n).
Proof. by split; [exact: spge_semigroup_laws | exact: spge_mul1 | exact: spge_mulV]. Qed.

(* C04/C05 for point group elements compared in the default way (without U) and
   in the strict way (U up to phase). *)
Theorem C04_generate_group_pge ord (gens G : seq (npge F d n)) (fuel : nat) :
  enumeration ord ->
  generate_group (@npge_eq F d n) (@npge_mul F d n) ord fuel gens = Some G ->
  gens <> [::] ->
  [/\ forall x, inset (@npge_eq F d n) G x <-> is_product (@npge_eq F d n) (@npge_mul F d n) gens x,
      inset (@npge_eq F d n) G (npge_one F d n) &
      forall x, inset (@npge_eq F d n) G x -> inset (@npge_eq F d n) G (npge_inv x)].
Proof.
move=> o H ne; have [H1 _ _ _ _] := C04_generate_group_exact npge_semigroup_laws o H.
by have [? _ ?] := C05_generate_group_is_group npge_group_laws o H ne.
Qed.

Theorem C04_generate_group_pge_strict ord (gens G : seq (spge F d n)) (fuel : nat) :
  enumeration ord ->
  generate_group (@spge_eq F d n) (@spge_mul F d n) ord fuel gens = Some G ->
  gens <> [::] ->
  [/\ forall x, inset (@spge_eq F d n) G x <-> is_product (@spge_eq F d n) (@spge_mul F d n) gens x,
      inset (@spge_eq F d n) G (spge_one F d n) &
      forall x, inset (@spge_eq F d n) G x -> inset (@spge_eq F d n) G (spge_inv x)].
Proof.
move=> o H ne; have [H1 _ _ _ _] := C04_generate_group_exact spge_semigroup_laws o H.
by have [? _ ?] := C05_generate_group_is_group spge_group_laws o H ne.
Qed.
End Elements.

(* ---- concrete cases ---- *)
(* Z/4, represented by natural numbers compared modulo 4: == is coarser than
   identity of representation, as for point group elements. *)
Definition eq4 (x y : nat) : bool := x %% 4 == y %% 4.
Lemma z4_laws : group_laws eq4 addn 0 (fun x => 3 * x).
Proof.
split; first split.
- by move=> x; apply: eqxx.
- by move=> x y; apply: eq_sym.
- by move=> y x z /eqP xy /eqP yz; apply/eqP; rewrite xy.
- by move=> x x' y y' /eqP E1 /eqP E2; apply/eqP; rewrite -modnDm E1 E2 modnDm.
- exact: addnA.
- by move=> x; apply: eqxx.
- by move=> x; apply/eqP; rewrite -mulSnr modnMr.
Qed.
Lemma id_enum T : enumeration (@id (seq T)). Proof. by []. Qed.

Example C04_case : generate_group eq4 addn id 5 [:: 1; 6] = Some [:: 1; 6; 7; 12].
Proof. by vm_compute. Qed.
Example C05_case : inset eq4 [:: 1; 6; 7; 12] 0.
Proof.
by have [] := C05_generate_group_is_group z4_laws (@id_enum nat) C04_case _.
Qed.

(* Klein's four group inside pairs modulo 2 *)
Definition eqK (x y : nat * nat) : bool := (x.1 %% 2 == y.1 %% 2) && (x.2 %% 2 == y.2 %% 2).
Definition mulK (x y : nat * nat) := (x.1 + y.1, x.2 + y.2).
Lemma klein_laws : group_laws eqK mulK (0, 0) id.
Proof.
split; first split.
- by move=> x; rewrite /eqK !eqxx.
- by move=> x y; rewrite /eqK eq_sym; congr andb; rewrite eq_sym.
- move=> y x z /andP[/eqP E1 /eqP E2] /andP[/eqP E3 /eqP E4].
  by rewrite /eqK E1 E3 E2 E4 !eqxx.
- move=> x x' y y' /andP[/eqP E1 /eqP E2] /andP[/eqP E3 /eqP E4].
  by apply/andP; split; apply/eqP; rewrite /= -modnDm ?E1 ?E3 ?E2 ?E4 modnDm.
- by move=> x y z; rewrite /mulK /= !addnA.
- by move=> x; rewrite /eqK !eqxx.
- by move=> x; rewrite /eqK /= !addnn -!muln2 !modnMl.
Qed.
Definition klein := [:: (0, 0); (1, 0); (0, 1); (1, 1)].
Example C06_case : exists D,
  generate_subgroups eqK mulK id 9 9 klein = Some D /\
  [seq size kv.1 | kv <- D] = [:: 1; 2; 2; 2; 4] /\ [seq size kv.2 | kv <- D] = [:: 1; 1; 1; 1; 2].
Proof. by eexists; split; [vm_compute; reflexivity | vm_compute]. Qed.
Example C06_hypotheses : set_wf eqK klein /\ closed eqK mulK klein.
Proof.
split=> // a b _ _; apply/insetP; move: (mulK a b) => [x y].
rewrite /klein /set_mem /= /eqK /=.
have : x %% 2 < 2 by rewrite ltn_mod.
have : y %% 2 < 2 by rewrite ltn_mod.
by case: (x %% 2) => [|[|?]]; case: (y %% 2) => [|[|?]].
Qed.

(* C08: candidates 1 2 3 of Z/4, the symmetric elements are {0, 2} *)
Definition find4 (g : nat) := if g %% 2 == 0 then Some (g + 4) else None.
Example C08_case :
  discrete_symmetries eq4 addn id (fun x => 3 * x) (fun c _ => c) find4 xpredT 9 9
    (fun _ => 4) [:: 1; 2; 3; 0] = Some (Ok ([:: 6; 12], [:: 6])).
Proof. by vm_compute. Qed.
Example C08_hypotheses :
  [/\ (forall g gr, find4 g = Some gr -> [/\ eq4 gr g, ~~ odd g & xpredT gr]),
      (forall g, find4 g = None -> ~ ~~ odd g) &
      (forall x y, eq4 x y -> ~~ odd x -> ~~ odd y)].
Proof.
have o2 g : (g %% 2 == 0) = ~~ odd g by rewrite modn2; case: odd.
split=> [g gr|g|x y /eqP E].
- by rewrite /find4 o2; case: ifP => // og [<-]; rewrite /eq4 modnDr.
- by rewrite /find4 o2; case: ifP => // ->.
- have : odd (x %% 4) = odd (y %% 4) by rewrite E.
  by rewrite !odd_mod // => ->.
Qed.

(* C01 and C11 are not vacuous: inversion combined with time reversal *)
Section ElementCase.
Import GRing.Theory.
Local Open Scope ring_scope.
Example C01_case (F : rcfType) :
  pge_wf (Pge (F := F) (d := 3) (n := 1) (- 1%:M) true false (Some 1%:M) false).
Proof.
split; last exact: unitary1.
by rewrite /= -scaleN1r unitmxZ ?unitmx1 // unitrN unitr1.
Qed.
End ElementCase.

Print Assumptions C01_pge_group.
Print Assumptions C01_pge_powers.
Print Assumptions C01_pge_inverse_unique.
Print Assumptions C04_generate_group_terminates.
Print Assumptions C04_generate_group_exact.
Print Assumptions C04_generate_group_pge.
Print Assumptions C04_generate_group_pge_strict.
Print Assumptions C05_generate_group_is_group.
Print Assumptions C05_generate_group_empty_refuted.
Print Assumptions C06_generate_subgroups_exact.
Print Assumptions C07_generate_subgroups_minimal.
Print Assumptions C08_discrete_symmetries_exact.
Print Assumptions C08_empty_candidates_refuted.
Print Assumptions C11_eq_equivalence_default.
Print Assumptions C11_eq_equivalence_strict.
Print Assumptions C11_eq_transitive_mixed_flags_refuted.
