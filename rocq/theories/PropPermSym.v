(* C48: symmetry_from_permutation. *)
From mathcomp Require Import all_ssreflect all_algebra.
From mathcomp Require Import complex zify.
From Verif Require Import Prelude PGE PGEProofs Symmetrize PropBlochSpan PermSym.

Set Implicit Arguments.
Unset Strict Implicit.
Unset Printing Implicit Defensive.
Import GRing.Theory Num.Theory.
Local Open Scope ring_scope.
Local Open Scope complex_scope.

Section Lookup.
Variables (Site : eqType) (T : eqType).
Implicit Types (D : seq (Site * T)) (a : Site).
Lemma lookupP D a v : uniq (unzip1 D) -> lookup D a = Ok v <-> (a, v) \in D.
Proof.
elim: D => //= -[b w] D IH /andP [nb u]; rewrite inE xpair_eqE [a == b]eq_sym; case: eqP => [e|_] /=.
  rewrite (_ : (a, v) \in D = false) ?orbF; last first.
    by apply: contraNF nb => h; rewrite e; apply/mapP; exists (a, v).
  by split=> [[->]|/eqP ->].
exact: IH.
Qed.
Lemma lookup_total D a : a \in unzip1 D -> exists v, lookup D a = Ok v.
Proof. by elim: D => //= -[b w] D IH; rewrite inE eq_sym; case: eqP => [_ _|_ /= /IH] //; exists w. Qed.
End Lookup.

Section Ranges.
Variable Site : eqType.
Implicit Types (D : seq (Site * nat)) (a : Site).
Lemma site_range_bound D a st s w : site_range st D a = Ok (s, w) -> (s + w <= st + sumn (unzip2 D))%N.
Proof.
elim: D st => //= kv D IH st; case: eqP => [_ [<- <-]|_ /IH]; first by rewrite leq_add2l leq_addr.
by rewrite addnA.
Qed.
Lemma site_range_lookup D a st s w : site_range st D a = Ok (s, w) -> lookup D a = Ok w.
Proof. by elim: D st => //= kv D IH st; case: eqP => [_ [_ ->]|_ /IH]. Qed.
Lemma size_labels D : size (labels D) = sumn (unzip2 D).
Proof. by elim: D => //= kv D IH; rewrite /labels /= size_cat size_nseq -IH. Qed.
Lemma site_of_total D i : (i < sumn (unzip2 D))%N -> exists2 a, site_of D i = Some a & a \in unzip1 D.
Proof.
rewrite -size_labels /site_of => li; case El: (labels D) => [|a0 l]; first by rewrite El in li.
rewrite -El (nth_map a0) //; exists (nth a0 (labels D) i) => //.
have /flattenP [s /mapP [kv kD ->]] := mem_nth a0 li; rewrite mem_nseq => /andP [_ /eqP ->].
by apply/mapP; exists kv.
Qed.
Lemma rangeP D a r i : uniq (unzip1 D) -> site_range 0 D a = Ok r -> (site_of D i == Some a) = in_range r i.
Proof. by case: r => s w u /(site_rangeP u) [_ ->]. Qed.
Lemma sum_range (V : zmodType) (f : nat -> V) N s w : (s + w <= N)%N ->
  \sum_(j < N) (if in_range (s, w) j then f j else 0) = \sum_(l < w) f (s + l)%N.
Proof.
move=> le; rewrite -(big_mkord xpredT (fun j => if in_range (s, w) j then f j else 0)).
rewrite (big_cat_nat _ _ _ (leq0n s)) /=; last by apply: leq_trans le; apply: leq_addr.
rewrite (big_cat_nat _ _ _ (leq_addr w s)) //= big_nat_cond big1; last first.
  by move=> j; rewrite /in_range /=; case: ifP => //; lia.
rewrite [X in _ + (_ + X)]big_nat_cond [X in _ + (_ + X)]big1 ?addr0 ?add0r; last first.
  by move=> j; rewrite /in_range /=; case: ifP => //; lia.
rewrite -{1}[s]add0n big_addn addKn big_mkord; apply: eq_bigr => l _.
by rewrite /in_range /= leq_addl addnC ltn_add2l ltn_ord.
Qed.
End Ranges.

Section Perm.
Variables (F : rcfType) (d n : nat) (Site : eqType).
Local Notation C := F[i].
Local Notation arr := (arr F).
Variables (perm : seq (Site * Site)) (norbs : seq (Site * nat)) (o : onsite_action F Site).
Hypothesis dict : uniq (unzip1 perm).
Local Notation D := (odict norbs).
Local Notation site := (site_of D).
Implicit Types (a b : Site).

(* what the loop has done for a site *)
Definition placed (U : 'M[C]_n.+1) a : Prop :=
  exists b A ra rb, [/\ (a, b) \in perm, action_of o D a = Ok A,
    site_range 0 D a = Ok ra /\ site_range 0 D b = Ok rb, ra.2 = rb.2 &
    forall i j : 'I_n.+1, in_range ra i -> U i j = if in_range rb j then
      entry A (if rows A == 1%N then 0 else i - ra.1)%N (if cols A == 1%N then 0 else j - rb.1)%N else 0].

Lemma loopP s (U : 'M[C]_n.+1) : uniq s -> foldl (fun rU a => do U <- rU; perm_step perm D o U a) (Ok 0) s = Ok U ->
  (forall a, a \in s -> placed U a) /\ forall i j : 'I_n.+1, (forall a, a \in s -> site i != Some a) -> U i j = 0.
Proof.
elim/last_ind: s U => [|s a IH] U /=; first by move=> _ [<-]; split=> // i j _; rewrite mxE.
rewrite rcons_uniq foldl_rcons => /andP [na us].
case E: (foldl _ _ s) => [V|] //=; have [pV zV] := IH V us E; rewrite /perm_step.
case Eb: (lookup perm a) => [b|] //=; case Ena: (lookup D a) => [wa|] //=; case Enb: (lookup D b) => [wb|] //=.
case: eqP => // Ew; case Ea: (site_range 0 D a) => [ra|] //=; case Erb: (site_range 0 D b) => [rb|] //=.
case EA: (action_of _ _ _) => [A|] //=; rewrite /set_block; case: ifP => // _ [<-].
have ud := odict_uniq norbs.
have eqr : ra.2 = rb.2.
  case: ra rb Ea Erb => [sa wa'] [sb wb'] /site_range_lookup ea /site_range_lookup eb /=.
  by move: ea eb Ew; rewrite Ena Enb /= => -[<-] [<-].
split=> [a'|i j H].
  rewrite mem_rcons inE; case: (eqVneq a' a) => [-> _|ne /= a's].
    exists b, A, ra, rb; split=> //; first by apply/lookupP.
    move=> i j ii; rewrite mxE -[X in X && _]/(in_range ra i) -[X in _ && X]/(in_range rb j) ii /=.
    case: ifP => // _; apply: zV => a2 a's; apply/eqP => e.
    by move: ii; rewrite -(rangeP i ud Ea) e => /eqP [ea]; rewrite -ea a's in na.
  have [b' [A' [ra' [rb' [h1 h2 [h3 h3'] h4 h5]]]]] := pV a' a's.
  exists b', A', ra', rb'; split=> // i j ii; rewrite mxE -[X in X && _]/(in_range ra i) (_ : in_range ra i = false) /=; first exact: h5.
  apply/negbTE; rewrite -(rangeP i ud Ea); move: ii; rewrite -(rangeP i ud h3) => /eqP ->.
  by apply: contraNneq ne => -[->].
have ni : in_range ra i = false.
  by apply/negbTE; rewrite -(rangeP i ud Ea); apply: H; rewrite mem_rcons mem_head.
rewrite mxE -[X in X && _]/(in_range ra i) ni /=; apply: zV => a' a's; apply: H.
by rewrite mem_rcons inE a's orbT.
Qed.

Variables (R : 'M[F]_d) (au asym : bool) (g : pge F d n).
Hypothesis E : symmetry_from_permutation n R perm norbs o au asym = Ok g.

Lemma sfp_unfold : exists U, [/\ pU g = Some U, [/\ pR g = R, pconj g = au & panti g = asym],
  same_set (unzip1 perm) (unzip2 perm) /\ same_set (unzip2 perm) (unzip1 D) &
  (forall a, a \in unzip1 D -> placed U a) /\ forall i j : 'I_n.+1, (forall a, a \in unzip1 D -> site i != Some a) -> U i j = 0].
Proof.
move: E; rewrite /symmetry_from_permutation; case: ifP => // /negbFE /andP [s1 s2].
case Ef: (foldl _ _ _) => [U|] //= [<-]; exists U; split=> //.
exact: loopP (odict_uniq norbs) Ef.
Qed.

(* accepted calls have a permutation of the sites that keeps the number of orbitals *)
Theorem C48_accepted : [/\ uniq (unzip2 perm), unzip1 perm =i unzip1 norbs, unzip2 perm =i unzip1 norbs &
  forall a b, (a, b) \in perm -> last_number norbs a = last_number norbs b].
Proof.
have [U [_ _ [/andP [/allP k1 /allP k2] /andP [/allP k3 /allP k4]] [pU _]]] := sfp_unfold.
have kv : unzip1 perm =i unzip2 perm by move=> x; apply/idP/idP; [apply: k1|apply: k2].
have vn : unzip2 perm =i unzip1 norbs by move=> x; rewrite -odict_mem; apply/idP/idP; [apply: k3|apply: k4].
split=> //.
- by apply: leq_size_uniq dict k1 _; rewrite !size_map.
- by move=> x; rewrite kv vn.
- move=> a b ab; have aD : a \in unzip1 D by rewrite odict_mem -vn -kv; apply/mapP; exists (a, b).
  have [b' [A [[sa wa] [[sb wb] [ab' _ [ra rb] /= ew _]]]]] := pU a aD.
  have -> : b = b' by have /(lookupP _ _ dict) := ab; have /(lookupP _ _ dict) -> := ab' => -[].
  have /(lookupP _ _ (odict_uniq norbs)) := site_range_lookup ra; rewrite (C42_norbs norbs).2 => /eqP ->.
  have /(lookupP _ _ (odict_uniq norbs)) := site_range_lookup rb; rewrite (C42_norbs norbs).2 => /eqP ->.
  by rewrite ew.
Qed.

(* the unitary connects the orbitals of a with those of perm[a], in this direction: the
   orbitals of perm[a] are mapped to those of a *)
Theorem C48_support : exists2 U, pU g = Some U & forall i j, U i j != 0 ->
  exists a b, [/\ (a, b) \in perm, site i = Some a & site j = Some b].
Proof.
have [U [EU _ _ [pl z]]] := sfp_unfold; exists U => // i j nz.
have ud := odict_uniq norbs.
case s: (site i) => [a|]; last first.
  by case/eqP: nz; apply: z => a _; rewrite s.
have aD : a \in unzip1 D.
  by apply: contraT => /(site_of_notin (i := i)); rewrite s.
have [b [A [ra [rb [ab _ [Ea Eb] _ H]]]]] := pl a aD.
exists a, b; split=> //; apply/eqP; rewrite (rangeP j ud Eb).
by apply: contraNT nz => nj; rewrite H ?(negPf nj) // -(rangeP i ud Ea) s.
Qed.

Definition unitary_arr (w : nat) (A : arr) : Prop := [/\ rows A = w, cols A = w &
  forall i k, (i < w)%N -> (k < w)%N -> \sum_(l < w) entry A i l * conjc (entry A k l) = (i == k)%:R].

Theorem C48_unitary : sumn (unzip2 D) = n.+1 ->
  (forall a w A, lookup D a = Ok w -> action_of o D a = Ok A -> unitary_arr w A) ->
  exists2 U, pU g = Some U & unitarymx U.
Proof.
move=> EN un; have [U [EU _ _ [pl _]]] := sfp_unfold; exists U => //.
have [uv kn vn _] := C48_accepted; have ud := odict_uniq norbs.
suff UU : U *m dagger U = 1%:M by split=> //; apply: mulmx1C.
apply/matrixP => i k; rewrite mxE.
have [a sa aD] : exists2 a, site i = Some a & a \in unzip1 D by apply: site_of_total; rewrite EN.
have [c sc cD] : exists2 a, site k = Some a & a \in unzip1 D by apply: site_of_total; rewrite EN.
have [b [A [[ra wa] [[rb wb] [ab EA [Ea Eb] /= ew HA]]]]] := pl a aD.
have [b' [A' [[rc wc] [[rb' wb'] [cb EC [Ec Eb'] /= ew' HC]]]]] := pl c cD.
have ia : in_range (ra, wa) i by rewrite -(rangeP i ud Ea) sa.
have kc : in_range (rc, wc) k by rewrite -(rangeP k ud Ec) sc.
have [rA cA uA] := un a wa A (site_range_lookup Ea) EA.
case: (eqVneq a c) => [ac|ac].
  subst c; have eb : b' = b.
    by have /(lookupP _ _ dict) := ab; have /(lookupP _ _ dict) -> := cb => -[].
  move: Ec Eb' EC; rewrite {}eb Ea Eb EA => -[erc ewc] [erb ewb] [eA].
  rewrite -erc -ewc in kc HC; rewrite -eA -erb -ewb in HC.
  have ii : ((if rows A == 1%N then 0 else i - ra) = i - ra)%N.
    by rewrite rA; case: eqP => // w1; move: ia; rewrite /in_range /= w1; lia.
  have kk : ((if rows A == 1%N then 0 else k - ra) = k - ra)%N.
    by rewrite rA; case: eqP => // w1; move: kc; rewrite /in_range /= w1; lia.
  pose f j := entry A (i - ra)%N (j - rb)%N * conjc (entry A (k - ra)%N (j - rb)%N).
  rewrite (eq_bigr (fun j : 'I_n.+1 => if in_range (rb, wb) j then f j else 0)) => [|j _]; last first.
    rewrite !mxE HA // HC //= ii kk; case: ifP => jb; last by rewrite mul0r.
    rewrite /f; have -> : ((if cols A == 1%N then 0 else j - rb) = j - rb)%N => //.
    by rewrite cA ew; case: eqP => // w1; move: jb; rewrite /in_range /= w1; lia.
  rewrite sum_range; last by have := site_range_bound Eb; rewrite EN.
  rewrite -ew; under eq_bigr do rewrite /f addKn.
  rewrite uA ?mxE; [|by move: ia; rewrite /in_range /=; lia|by move: kc; rewrite /in_range /=; lia].
  by congr (_%:R); rewrite -val_eqE /=; move: ia kc; rewrite /in_range /= => *; congr nat_of_bool; apply/eqP/eqP; lia.
rewrite big1 => [|j _]; first by rewrite mxE; case: eqP => // e; move: sc; rewrite -e sa => -[] /eqP; rewrite (negPf ac).
rewrite !mxE HA // HC //; case jb: (in_range (rb, wb) j); last by rewrite mul0r.
case jb': (in_range (rb', wb') j); last by rewrite conjc0 mulr0.
case/eqP: ac; move: jb jb'; rewrite -(rangeP j ud Eb) -(rangeP j ud Eb') => /eqP -> /eqP [e].
subst b'; have us : uniq (unzip1 [seq (x.2, x.1) | x <- perm]) by rewrite /unzip1 -map_comp.
have h1 : (b, a) \in [seq (x.2, x.1) | x <- perm] by apply/mapP; exists (a, b).
have h2 : (b, c) \in [seq (x.2, x.1) | x <- perm] by apply/mapP; exists (c, b).
by move/(lookupP _ _ us): h1; move/(lookupP _ _ us): h2 => -> [].
Qed.

(* the documented direction: orbitals of a site are mapped to its image *)
Definition maps_to_image (U : 'M[C]_n.+1) : Prop :=
  forall a b, (a, b) \in perm -> forall i j : 'I_n.+1, site j = Some a -> U i j != 0 -> site i = Some b.

Theorem C48_direction_refuted U a b c : sumn (unzip2 D) = n.+1 -> pU g = Some U -> unitarymx U ->
  (a, b) \in perm -> (b, c) \in perm -> c != a -> (exists j : 'I_n.+1, site j = Some a) -> ~ maps_to_image U.
Proof.
move=> EN EU [_ uU] ab bc ca [j sj] H.
have [i nz] : exists i, U i j != 0.
  apply/existsP; apply: contraT; rewrite negb_exists => /forallP z.
  move/matrixP/(_ j j): uU; rewrite !mxE eqxx big1 => [/eqP|i _]; first by rewrite eq_sym oner_eq0.
  by have /eqP := negbNE (z i) => ->; rewrite mulr0.
have si := H a b ab i j sj nz.
have [U' EU' S] := C48_support; move: EU'; rewrite EU => -[e]; subst U'.
have [a' [b' [ab' si' sj']]] := S i j nz.
move: si' sj'; rewrite si sj => -[e1] [e2]; subst a' b'.
have /(lookupP _ _ dict) := bc; have /(lookupP _ _ dict) -> := ab' => -[e].
by rewrite e eqxx in ca.
Qed.
End Perm.

(* malformed dictionaries are rejected *)
Theorem C48_rejects (F : rcfType) d n (Site : eqType) (R : 'M[F]_d) perm (norbs : seq (Site * nat)) o au asym :
  uniq (unzip1 perm) ->
  ~ (unzip1 perm =i unzip1 norbs /\ unzip2 perm =i unzip1 norbs) ->
  symmetry_from_permutation n R perm norbs o au asym = Err ValueError.
Proof.
move=> u H; rewrite /symmetry_from_permutation; case: ifP => // /negbFE /andP [/andP [/allP k1 /allP k2] /andP [/allP k3 /allP k4]].
case: H; have vn : unzip2 perm =i unzip1 norbs by move=> x; rewrite -odict_mem; apply/idP/idP; [apply: k3|apply: k4].
by split=> // x; rewrite -vn; apply/idP/idP; [apply: k1|apply: k2].
Qed.
Theorem C48_rejects_sizes (F : rcfType) d n (Site : eqType) (R : 'M[F]_d) perm (norbs : seq (Site * nat)) o au asym a b :
  uniq (unzip1 perm) -> (a, b) \in perm -> last_number norbs a <> last_number norbs b ->
  is_ok (symmetry_from_permutation n R perm norbs o au asym) = false.
Proof.
move=> u ab ne; case E: (symmetry_from_permutation _ _ _ _ _ _ _) => [g|] //.
by have [_ _ _ /(_ _ _ ab)] := C48_accepted u E.
Qed.

(* three sites with one orbital each, permuted cyclically *)
Section Cycle.
Variable F : rcfType.
Definition cycle3 : seq (nat * nat) := [:: (0, 1); (1, 2); (2, 0)]%N.
Definition orbs3 : seq (nat * nat) := [:: (0, 1); (1, 1); (2, 1)]%N.
Theorem C48_refuted : exists (g : pge F 2 2) U,
  [/\ symmetry_from_permutation 2 1%:M cycle3 orbs3 (@NoAction F nat_eqType) false false = Ok g, pU g = Some U,
      unitarymx U & ~ maps_to_image cycle3 orbs3 U].
Proof.
have [g E] : exists g : pge F 2 2, symmetry_from_permutation 2 1%:M cycle3 orbs3 (@NoAction F nat_eqType) false false = Ok g.
  by eexists; reflexivity.
have [|a w A|U EU uU] := C48_unitary (erefl : uniq (unzip1 cycle3)) E; first by [].
  rewrite /action_of => -> /= [<-]; split=> //= i k li lk.
  rewrite (bigD1 (Ordinal li)) //= eqxx mul1r big1 ?addr0 => [|l ne].
    by rewrite eq_sym; case: eqP => _; apply/eqP; rewrite eq_complex /= oppr0 !eqxx.
  by rewrite (_ : (i == l :> nat) = false) ?mul0r //; apply/negbTE; apply: contraNneq ne => e; apply/eqP/val_inj.
exists g, U; split=> //; apply: (@C48_direction_refuted F 2 2 _ cycle3 orbs3 _ _ _ _ _ _ E U 0%N 1%N 2%N) => //.
by exists 0.
Qed.
End Cycle.

Print Assumptions C48_accepted.
Print Assumptions C48_support.
Print Assumptions C48_unitary.
Print Assumptions C48_rejects.
Print Assumptions C48_rejects_sizes.
Print Assumptions C48_refuted.
