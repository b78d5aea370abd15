(* generate_group on point group elements that are compared including U. *)
From mathcomp Require Import all_ssreflect all_algebra.
From mathcomp Require Import complex.
From Verif Require Import Prelude PySet GroupGen GroupGenProofs PGE PGEProofs PGEGroup GroupSpec PropGroups.
From Verif Require Import Keys KeysProofs PropApply Average.

Set Implicit Arguments.
Unset Strict Implicit.
Unset Printing Implicit Defensive.
Import GRing.Theory Num.Theory.
Local Open Scope ring_scope.
Local Open Scope complex_scope.

(* ---- the algorithm commutes with embeddings ---- *)
Section Transfer.
Variables (T T' : Type) (f : T' -> T) (eqb : rel T) (eqb' : rel T') (mul : T -> T -> T) (mul' : T' -> T' -> T').
Variables (ord : seq T -> seq T) (ord' : seq T' -> seq T').
Hypothesis fE : forall x y, eqb' x y = eqb (f x) (f y).
Hypothesis fM : forall x y, f (mul' x y) = mul (f x) (f y).
Hypothesis fO : forall s, map f (ord' s) = ord (map f s).

Lemma tr_mem s x : set_mem eqb (map f s) (f x) = set_mem eqb' s x.
Proof. by rewrite /set_mem has_map; apply: eq_has => y /=; rewrite fE. Qed.
Lemma tr_add s x : set_add eqb (map f s) (f x) = map f (set_add eqb' s x).
Proof. by rewrite /set_add tr_mem; case: ifP => _ //; rewrite map_rcons. Qed.
Lemma tr_union s t : set_union eqb (map f s) (map f t) = map f (set_union eqb' s t).
Proof. by rewrite /set_union; elim: t s => //= x t IH s; rewrite tr_add IH. Qed.
Lemma tr_of t : set_of eqb (map f t) = map f (set_of eqb' t).
Proof. exact: (tr_union [::]). Qed.
Lemma tr_diff s t : set_diff eqb (map f s) (map f t) = map f (set_diff eqb' s t).
Proof. by rewrite /set_diff filter_map; congr map; apply: eq_filter => x /=; rewrite tr_mem. Qed.
Lemma tr_prod s t : [seq mul a b | a <- ord (map f s), b <- ord (map f t)] = map f [seq mul' a b | a <- ord' s, b <- ord' t].
Proof.
rewrite -!fO; elim: (ord' s) => //= x s' IH; rewrite map_cat -IH; congr (_ ++ _).
by rewrite -!map_comp; apply: eq_map => y /=; rewrite fM.
Qed.
Lemma tr_loop fuel gens group old :
  gg_loop eqb mul ord fuel (map f gens) (map f group) (map f old) =
  omap (map f) (gg_loop eqb' mul' ord' fuel gens group old).
Proof.
elim: fuel group old => //= fuel IH group old.
rewrite tr_prod tr_of tr_diff; case: (set_diff _ _ _) => [|x s]; first by [].
by have := IH (set_union eqb' group (x :: s)) (x :: s); rewrite -tr_union.
Qed.
Lemma tr_group fuel gens :
  generate_group eqb mul ord fuel (map f gens) = omap (map f) (generate_group eqb' mul' ord' fuel gens).
Proof. by rewrite /generate_group tr_of tr_loop. Qed.
End Transfer.

Lemma In_map_val (T : Type) (p : pred T) (s : seq {x : T | p x}) (x : {x : T | p x}) :
  List.In (val x) (map val s) <-> List.In x s.
Proof.
split=> [/In_map_iff [y ys e]|xs]; last by apply/In_map_iff; exists x.
by rewrite (val_inj e).
Qed.

Section Strict.
Variables (F : rcfType) (d n : nat).
Local Notation pge := (pge F d n).
Local Notation spge := (spge F d n).

Lemma strict_lift (l : seq pge) : (forall g, List.In g l -> strict_ok g) -> exists l' : seq spge, map val l' = l.
Proof.
elim: l => [|g l IH] H; first by exists [::].
have [|l' El] := IH; first by move=> h hl; apply: H; right.
by exists (exist _ g (H g (or_introl erefl)) :: l'); rewrite /= El.
Qed.

Lemma distinct_no_repeats (G : seq spge) : no_repeats (@spge_eq F d n) G -> distinct (@phase_same F d n) (map val G).
Proof.
elim: G => //= x G IH [nx /IH H]; split=> // y /In_map_iff [z zG ->] [b u]; apply: nx; exists z => //.
by apply/spge_eqP; split=> //; move: u; rewrite !spge_UE.
Qed.

(* what generate_group returns for strictly compared unitary elements is a group
   up to the phases of U *)
Theorem generate_strict_group ord fuel (gens G : seq pge) : enumeration ord ->
  (forall g, List.In g gens -> strict_ok g) -> (0 < size gens)%N ->
  generate_group (@pge_eq F d n) (@pge_mul F d n) ord fuel gens = Some G ->
  [/\ symmetry_group G, forall g, List.In g G -> strict_ok g &
      forall g, List.In g gens -> exists2 g', List.In g' G & phase_same g g'].
Proof.
move=> o ok n0; have [gens' Eg] := strict_lift ok.
pose ord' (s : seq spge) : seq spge := pmap insub (ord (map val s)).
have valord s : map val (ord' s) = ord (map val s).
  rewrite /ord' (pmap_filter (insubK _)).
  have : forall g, List.In g (ord (map val s)) -> strict_ok g.
    by move=> g /o /In_map_iff [x _ ->]; case: x.
  elim: (ord _) => //= g l IH H; rewrite insubT ?(H g (or_introl erefl)) //= => _.
  by rewrite IH // => h hl; apply: H; right.
have o' : enumeration ord'.
  by move=> s x; rewrite -In_map_val valord o In_map_val.
rewrite -Eg (@tr_group _ _ val _ (@spge_eq F d n) _ (@spge_mul F d n) _ ord') //.
case EG: (generate_group _ _ _ _ _) => [G'|] //= [<-].
have ne : gens' <> [::] by move=> E; rewrite E in Eg; rewrite -Eg in n0.
have [_ inc cl nr _] := C04_generate_group_exact (spge_semigroup_laws F d n) o' EG.
have same (x y : spge) : spge_eq x y -> phase_same (val x) (val y).
  by move=> /spge_eqP [b u]; split=> //; rewrite !spge_UE.
have inG (x : spge) : List.In x G' -> inset (@spge_eq F d n) G' x.
  by move=> xG; exists x => //; apply: spge_refl.
split; first split.
- by move=> g /In_map_iff [x _ ->]; case/and3P: (valP x) => u _ _; split=> //; rewrite spge_UE; apply: spge_Uu.
- by move=> g h /In_map_iff [x _ ->] /In_map_iff [y _ ->]; rewrite /same_U !spge_UE.
- exact: distinct_no_repeats.
- move=> g h /In_map_iff [x xG ->] /In_map_iff [y yG ->].
  have [z zG e] := cl x y (inG x xG) (inG y yG).
  by exists (val z); [apply/In_map_iff; exists z|apply: same e].
- rewrite size_map lt0n; apply/negP => /eqP /size0nil E; case: gens' ne Eg inc {EG} => // x s _ _ inc.
  by have [|y] := inc x; [exists x; [left|apply: spge_refl]|rewrite E].
- by move=> g /In_map_iff [x _ ->]; case: x.
- move=> g /In_map_iff [x xs ->]; have [|y yG e] := inc x; first by exists x => //; apply: spge_refl.
  by exists (val y); [apply/In_map_iff; exists y|apply: same e].
Qed.
End Strict.
