(* Groups of point group elements that are compared without U, and their closure under
   time reversal and particle-hole conjugation: the tools for C46. *)
From mathcomp Require Import all_ssreflect all_algebra.
From mathcomp Require Import complex.
From Verif Require Import Prelude PySet GroupGen GroupGenProofs PGE PGEProofs PGEGroup GroupSpec PropGroups.
From Verif Require Import StrictGroup Spin Factories.

Set Implicit Arguments.
Unset Strict Implicit.
Unset Printing Implicit Defensive.
Import GRing.Theory Num.Theory.
Local Open Scope ring_scope.

(* closures of finite representations: products of at most k + 1 generators *)
Section Words.
Variables (E : eqType) (rmul : E -> E -> E) (gs : seq E).
Fixpoint products k : seq E :=
  if k is k'.+1 then let l := products k' in undup (l ++ [seq rmul a g | a <- l, g <- gs]) else gs.
Lemma products_gen k x : x \in products k -> gen_by rmul (fun y => y \in gs) x.
Proof.
elim: k x => [|k IH] x /=; first by move=> xg; apply: gen_base.
rewrite mem_undup mem_cat => /orP[/IH //|/allpairsP [[a g] /= [ak gg ->]]].
by apply: gen_mul; [apply: IH|apply: gen_base].
Qed.
End Words.

Lemma gen_by_map (A B : Type) (f : A -> B) (ma : A -> A -> A) (mb : B -> B -> B) (P : A -> Prop) (Q : B -> Prop) x :
  (forall y, P y -> Q (f y)) -> (forall y z, gen_by ma P y -> gen_by ma P z -> f (ma y z) = mb (f y) (f z)) ->
  gen_by ma P x -> gen_by mb Q (f x).
Proof.
move=> PQ fM; elim=> [y /PQ Qy|y z gy IHy gz IHz]; first exact: gen_base.
by rewrite fM //; apply: gen_mul.
Qed.

Section Keys.
Variables (F : rcfType) (d n : nat).
Local Notation pge := (pge F d n).
Local Notation npge := (npge F d n).
Local Notation key := ('M[F]_d * bool * bool)%type.

(* what the comparison looks at *)
Definition pkey (g : pge) : key := (pR g, pconj g, panti g).
Definition kmul (x y : key) : key := (x.1.1 *m y.1.1, x.1.2 (+) y.1.2, x.2 (+) y.2).
Definition plain (g : pge) := (pR g \in unitmx) && ~~ pstrict g.

Lemma pkeyM g h : pkey (pge_mul g h) = kmul (pkey g) (pkey h).
Proof. by []. Qed.

Lemma npge_keyE (x y : npge) : npge_eq x y = (pkey (val x) == pkey (val y)).
Proof.
by apply/npge_eqP/eqP => [[e1 e2 e3]|[e1 e2 e3]]; [rewrite /pkey e1 e2 e3|split].
Qed.

Lemma plain_lift (l : seq pge) : (forall g, List.In g l -> plain g) -> exists l' : seq npge, map val l' = l.
Proof.
elim: l => [|g l IH] H; first by exists [::].
have [|l' El] := IH; first by move=> h hl; apply: H; right.
by exists (exist _ g (H g (or_introl erefl)) :: l'); rewrite /= El.
Qed.

Lemma mem_keys (s : seq npge) (x : npge) : (pkey (val x) \in map pkey (map val s)) = set_mem (@npge_eq F d n) s x.
Proof. by rewrite /set_mem; elim: s => //= y s IH; rewrite inE IH npge_keyE. Qed.

Lemma In_keys (T : Type) (e : T -> key) (s : seq T) k : reflect (exists2 x, List.In x s & k = e x) (k \in map e s).
Proof.
elim: s => [|y s IH'] /=; first by constructor=> -[].
rewrite in_cons; apply: (iffP orP) => [[/eqP ->|/IH' [x xs ->]]|[x [<-|xs] ek]]; first by exists y => //; left.
- by exists x => //; right.
- by left; apply/eqP.
- by right; apply: (introT IH'); exists x.
Qed.

Section Gen.
Variables (ord : seq pge -> seq pge) (gens : seq pge).
Hypothesis o : enumeration ord.
Hypothesis ok : forall g, List.In g gens -> plain g.

Let ord' (s : seq npge) : seq npge := pmap insub (ord (map val s)).
Let valord s : map val (ord' s) = ord (map val s).
Proof.
rewrite /ord' (pmap_filter (insubK _)).
have : forall g, List.In g (ord (map val s)) -> plain g.
  by move=> g /o /In_map_iff [x _ ->]; case: x.
rewrite /plain; elim: (ord _) => //= g l IH H; rewrite insubT ?(H g (or_introl erefl)) //= => _.
by rewrite IH // => h hl; apply: H; right.
Qed.
Let o' : enumeration ord'.
Proof. by move=> s x; rewrite -In_map_val valord o In_map_val. Qed.

Let gen_keys (l : seq npge) k : gen_by kmul (fun k => k \in map pkey (map val l)) k <->
  exists2 x : npge, gen_by (@npge_mul F d n) (fun x => List.In x l) x & k = pkey (val x).
Proof.
split=> [|[x gx ->]].
- elim=> [y|y z _ [a ga ->] _ [b gb ->]].
    by rewrite -map_comp => /In_keys [x xl ->]; exists x => //; apply: gen_base.
  by exists (npge_mul a b); [apply: gen_mul|].
- apply: (gen_by_map (f := fun x : npge => pkey (val x)) _ _ gx) => // y yl.
  by rewrite -map_comp; apply/In_keys; exists y.
Qed.

(* the result has exactly the products of the generators, once each *)
Lemma plain_group fuel G : generate_group (@pge_eq F d n) (@pge_mul F d n) ord fuel gens = Some G ->
  [/\ uniq (map pkey G), forall g, List.In g G -> plain g &
      forall k, k \in map pkey G <-> gen_by kmul (fun k => k \in map pkey gens) k].
Proof.
have [gens' Eg] := plain_lift ok.
rewrite -Eg (@tr_group _ _ val _ (@npge_eq F d n) _ (@npge_mul F d n) _ ord') //.
case EG: (generate_group _ _ _ _ _) => [G'|] //= [<-].
have [mem inc cl nr _] := C04_generate_group_exact (npge_semigroup_laws F d n) o' EG.
split.
- elim: (G') nr => //= x s IH [xs /IH ->]; rewrite andbT mem_keys.
  by apply/negP => /insetP.
- by move=> g /In_map_iff [x _ ->]; apply: (valP x).
- move=> k; rewrite gen_keys; split=> [|[x gx ->]].
    rewrite -map_comp => /In_keys [x xG ->].
    have /mem [y gy xy] : inset (@npge_eq F d n) G' x by exists x => //; apply: npge_refl.
    by exists y => //; move: xy; rewrite npge_keyE => /eqP.
  by rewrite mem_keys; apply/insetP/mem; exists x => //; apply: npge_refl.
Qed.

Lemma plain_terminates fuel (K : seq key) :
  (forall k, gen_by kmul (fun k => k \in map pkey gens) k -> k \in K) -> (size K < fuel)%N ->
  exists G, generate_group (@pge_eq F d n) (@pge_mul F d n) ord fuel gens = Some G.
Proof.
move=> cover fu; have [gens' Eg] := plain_lift ok.
rewrite -Eg (@tr_group _ _ val _ (@npge_eq F d n) _ (@npge_mul F d n) _ ord') //.
pose mk (k : key) : pge := Pge k.1.1 k.1.2 k.2 None false.
pose L : seq npge := pmap insub (map mk K).
have [||G ->] := @C04_generate_group_terminates _ _ _ ord' gens' L fuel (npge_semigroup_laws F d n) o'.
- move=> x [y gy xy]; have kK : pkey (val x) \in K.
    by apply: cover; rewrite -Eg; apply/gen_keys; exists y => //; move: xy; rewrite npge_keyE => /eqP.
  have pm : plain (mk (pkey (val x))) by case/andP: (valP x) => u _; rewrite /plain /= u.
  exists (exist (fun g : pge => (pR g \in unitmx) && ~~ pstrict g) (mk (pkey (val x))) pm); last by rewrite npge_keyE /= /pkey.
  rewrite /L; elim: (K) kK => //= k K' IH; rewrite inE => /orP[/eqP <-|/IH H].
    by have pm' := pm; rewrite /plain in pm'; rewrite insubT /=; left; apply: val_inj.
  by case: insubP => // *; right.
- by apply: leq_ltn_trans fu; rewrite size_pmap (leq_trans (count_size _ _)) // size_map.
- by exists (map val G).
Qed.

Lemma keys_set_of : map pkey (set_of (@pge_eq F d n) gens) =i map pkey gens.
Proof.
have [gens' Eg] := plain_lift ok.
rewrite -Eg (@tr_of _ _ val _ (@npge_eq F d n)) // => k; apply/idP/idP.
  rewrite -map_comp => /In_keys [x xs ->]; have := In_set_of xs => xg.
  by rewrite -map_comp; apply/In_keys; exists x.
rewrite -{1}map_comp => /In_keys [x xs ->]; rewrite mem_keys set_mem_of.
- exact: (set_mem_In (@npge_refl F d n)).
- exact: npge_sym.
- exact: npge_trans.
Qed.
End Gen.

(* ---- time reversal and particle-hole conjugation ---- *)
Definition flag_ok (tr ph c a : bool) : bool := (tr || (c == a)) && (ph || ~~ a).
Definition flags (tr ph : bool) : seq (bool * bool) :=
  [seq x <- [:: (false, false); (true, false); (true, true); (false, true)] | flag_ok tr ph x.1 x.2].

Section Flags.
Variables (tr ph : bool) (Rs L : seq 'M[F]_d).
Hypothesis L1 : 1%:M \in L.
Hypothesis RsL : {subset Rs <= L}.
Hypothesis LM : forall A B, A \in L -> B \in L -> A *m B \in L.
Hypothesis Lgen : forall A, A \in L -> gen_by (@mulmx F d d d) (fun B => B \in Rs) A.

Definition flag_keys : seq key :=
  [seq (R, false, false) | R <- Rs] ++ (if tr then [:: (1%:M, true, false)] else [::])
  ++ (if ph then [:: (1%:M, true, true)] else [::]).

Lemma flag_gen k : gen_by kmul (fun k => k \in flag_keys) k <-> (k.1.1 \in L) && flag_ok tr ph k.1.2 k.2.
Proof.
split.
- elim=> [x|x y _ /andP[xL xf] _ /andP[yL yf]] /=.
    rewrite !mem_cat => /or3P[/mapP [R RR ->]| |].
    - by rewrite RsL // /flag_ok /= !orbT.
    - by case: (tr) => //; rewrite inE => /eqP -> /=; rewrite L1 /flag_ok /= orbT.
    - by case: (ph) => //; rewrite inE => /eqP -> /=; rewrite L1 /flag_ok /= orbT.
  rewrite LM //=; move: xf yf; rewrite /flag_ok.
  by case: (tr) (ph) x.1.2 x.2 y.1.2 y.2 => [] [] [] [] [] [].
- case: k => [[R c] a] /= /andP[/Lgen gR fl].
  have gRk : gen_by kmul (fun k => k \in flag_keys) (R, false, false).
    apply: (gen_by_map (f := fun A : 'M[F]_d => (A, false, false) : key) _ _ gR) => // A AR.
    by rewrite !mem_cat map_f.
  have gT : tr -> gen_by kmul (fun k => k \in flag_keys) (1%:M, true, false).
    by move=> t; apply: gen_base; rewrite !mem_cat t inE eqxx /= orbT.
  have gP : ph -> gen_by kmul (fun k => k \in flag_keys) (1%:M, true, true).
    by move=> t; apply: gen_base; rewrite !mem_cat t inE eqxx !orbT.
  move: fl; rewrite /flag_ok => /andP[t p].
  have e c' a' c'' a'' : kmul (R, c', a') (1%:M, c'', a'') = (R, c' (+) c'', a' (+) a'') by rewrite /kmul /= mulmx1.
  case: a t p => [|] /=; case: c => /=; rewrite ?orbF ?orbT => t p //.
  - by have := gen_mul gRk (gP p); rewrite e.
  - by have := gen_mul (gen_mul gRk (gP p)) (gT t); rewrite !e.
  - by have := gen_mul gRk (gT t); rewrite e.
Qed.

Lemma size_flags : size (flags tr ph) = (2 ^ tr * 2 ^ ph)%N.
Proof. by case: tr ph => [] []. Qed.
End Flags.
End Keys.
