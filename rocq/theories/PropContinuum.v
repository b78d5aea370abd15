(* C34, C35, C36: continuum_variables and continuum_hamiltonian. *)
From mathcomp Require Import all_ssreflect all_algebra.
From mathcomp Require Import complex realalg.
From Verif Require Import Prelude ModelCore ModelProofs PropModel PGE PGEProofs Keys KeysProofs PropApply PropCGG LinSpan NullSpec Linalg MatBasisProofs PropLinalg Family FamilyProofs PropFamily FamilyOps PropConstrain GradedOps PolyExt Continuum.

Set Implicit Arguments.
Unset Strict Implicit.
Unset Printing Implicit Defensive.
Import GRing.Theory Num.Theory.
Local Open Scope ring_scope.
Local Open Scope complex_scope.

(* ---- itertools.product ---- *)
Section Product.
Variable T : eqType.
Implicit Types (ls : seq (seq T)) (t : seq T).
Lemma mem_product x0 ls t : (t \in product ls) =
  (size t == size ls) && all (fun i => nth x0 t i \in nth [::] ls i) (iota 0 (size ls)).
Proof.
elim: ls t => [|l ls IH] [|x t] //=.
  by apply/negbTE/negP => /allpairsP [[a b] [_ _]].
rewrite -add1n (iotaDl 1 0) all_map /=.
have -> : (x :: t \in [seq a :: b | a <- l, b <- product ls]) = (x \in l) && (t \in product ls).
  apply/idP/idP => [/allpairsP [[a b] [/= h1 h2 [-> ->]]]|/andP[h1 h2]]; first by rewrite h1.
  by apply/allpairsP; exists (x, t).
rewrite IH eqSS andbCA; congr (_ && (_ && _)); exact: eq_all.
Qed.
Lemma uniq_product ls : (forall l, l \in ls -> uniq l) -> uniq (product ls).
Proof.
elim: ls => //= l ls IH H; apply: allpairs_uniq.
- by apply: H; rewrite mem_head.
- by apply: IH => l' h; apply: H; rewrite inE h orbT.
- by move=> [a b] [a' b'] _ _ /= [-> ->].
Qed.
End Product.

Section Variables_.
Variables (F : rcfType) (d : nat) (P : eqType) (pone : P).
Local Notation key := (key F d P).
Local Notation cv := (@continuum_variables F d P pone).
Implicit Types (k : key).

(* the documented meaning of all_powers *)
Definition allowed_power (all_powers : option (seq powers)) (i : nat) (e : nat) : Prop :=
  if all_powers is Some ap then
    match nth (UpTo 0) ap i with UpTo m => (e <= m)%N | Only s => e \in s end
  else True.

(* C34: every monomial of the right degree with allowed exponents, and no other *)
Theorem C34_members n ap nmom vars : (0 < d)%N -> cv n ap nmom = Ok vars ->
  forall k, k \in vars <-> [/\ khop k = 0, kpar k = pone, (\sum_i kpow k i)%N = n &
    forall i : 'I_d, allowed_power ap i (kpow k i)].
Proof.
rewrite /continuum_variables => d0; set ap' := if ap is Some _ then _ else _.
case: ifP => // /negbT; rewrite negb_or -!leqNgt => /andP [sz _]; rewrite eqn0Ngt d0 /= => -[<-] k.
have szt : size (take d ap') = d by rewrite size_takel.
have nap i : (i < d)%N -> nth [::] [seq power_list p | p <- take d ap'] i = power_list (nth (UpTo 0) ap' i).
  by move=> li; rewrite (nth_map (UpTo 0)) ?szt // nth_take.
have PL i e : (i < d)%N -> (e <= n)%N -> e \in power_list (nth (UpTo 0) ap' i) <-> allowed_power ap i e.
  rewrite /ap' /allowed_power; case: ap {ap' sz szt nap} => [ap|] li le.
    by case: (nth _ ap i) => [m|s] //; rewrite /power_list mem_iota add0n ltnS.
  by rewrite nth_nseq li /power_list mem_iota add0n ltnS le.
have sumE p : size p = d -> (\sum_(i < d) kpow (monomial F d pone p) i = sumn p)%N.
  move=> sp; rewrite sumnE (big_nth 0%N) sp big_mkord; apply: eq_bigr => i _.
  by rewrite /kpow /monomial ffunE.
have lesum (q : 'I_d -> nat) i : (q i <= \sum_i q i)%N by rewrite (bigD1 i) //= leq_addr.
split.
  case/mapP => p; rewrite mem_filter (mem_product 0%N) !size_map szt => /andP[/eqP sp /andP[/eqP szp /allP H]] ->.
  split=> //; first by rewrite sumE.
  move=> i; apply/(PL i); first exact: ltn_ord.
    by rewrite -sp -sumE //; apply: lesum.
  by rewrite /kpow /monomial ffunE -nap //; apply: H; rewrite mem_iota add0n /=.
case: k => [[q h] z]; rewrite /khop /kpar /kpow /= => -[-> -> sq H].
apply/mapP; exists [seq q i | i <- enum 'I_d]; last first.
  congr (_, _, _); apply/ffunP => i; rewrite ffunE (nth_map i) ?size_enum_ord //.
  by rewrite nth_ord_enum.
rewrite mem_filter (mem_product 0%N) [size (map q _)]size_map size_enum_ord size_map szt eqxx sumnE big_map big_enum /= sq eqxx /=.
apply/allP => i; rewrite mem_iota add0n /= => li; rewrite nap //.
rewrite (nth_map (Ordinal li)) ?size_enum_ord // (nth_ord_enum _ (Ordinal li)).
apply/(PL i) => //; last exact: (H (Ordinal li)).
by rewrite -sq; apply: lesum.
Qed.

(* ... each of them once *)
Theorem C34_once n ap nmom vars : (0 < d)%N ->
  (forall l s, ap = Some l -> List.In (Only s) l -> uniq s) -> cv n ap nmom = Ok vars -> uniq vars.
Proof.
rewrite /continuum_variables => d0; set ap' := if ap is Some _ then _ else _ => H.
case: ifP => // /negbT; rewrite negb_or -!leqNgt => /andP [sz _]; rewrite eqn0Ngt d0 /= => -[<-].
have szt : size (take d ap') = d by rewrite size_takel.
rewrite map_inj_in_uniq.
  apply: filter_uniq; apply: uniq_product => l.
  have : forall p, List.In p (take d ap') -> uniq (power_list p).
    move=> [m|s] hp /=; first exact: (iota_uniq 0 m.+1).
    have {}hp : List.In (Only s) ap'.
      by rewrite -(cat_take_drop d ap'); apply/In_cat; left.
    move: hp; rewrite /ap'; case: ap H {ap' sz szt} => [ap|] H; first exact: H.
    by elim: (d) => //= d' IH [].
  elim: (take d ap') => //= p s IH Hp; rewrite inE => /orP[/eqP ->|]; first by apply: Hp; left.
  by apply: IH => q hq; apply: Hp; right.
move=> p q; rewrite !mem_filter !(mem_product 0%N) !size_map !szt => /andP[_ /andP[/eqP sp _]] /andP[_ /andP[/eqP sq _]].
rewrite /monomial => -[/ffunP E]; apply: (@eq_from_nth _ 0%N); first by rewrite sp sq.
by move=> i; rewrite sp => li; have := E (Ordinal li); rewrite !ffunE.
Qed.

(* too few momenta or powers are refused, everything else is accepted *)
Theorem C34_rejects n ap nmom : (exists vars, cv n ap nmom = Ok vars) <->
  (d <= nmom)%N /\ forall l, ap = Some l -> (d <= size l)%N.
Proof.
rewrite /continuum_variables.
have E : (size (if ap is Some l then l else nseq d (UpTo n)) < d)%N = ~~ (if ap is Some l then (d <= size l)%N else true).
  by case: ap => [l|] /=; rewrite ?size_nseq ?ltnn // ltnNge.
rewrite E; split=> [[vars]|[h1 h2]].
  case: ifP => // /negbT; rewrite negb_or negbK -leqNgt => /andP[h1 h2] _; split=> // l el.
  by move: h1; rewrite el.
have -> : ~~ (if ap is Some l then (d <= size l)%N else true) || (nmom < d)%N = false.
  by apply/negbTE; rewrite negb_or negbK -leqNgt h1 andbT; case: (ap) h2 => // l /(_ l erefl).
by case: ifP => _; eexists.
Qed.
End Variables_.

(* ---- the family of one degree ---- *)
Section Hamiltonian.
Variables (F : rcfType) (d n : nat) (P : eqType) (pone : P) (pmul : P -> P -> P) (pc : P -> P).
Hypothesis pcK : involutive pc.
Hypothesis pc1 : pc pone = pone.
Variable (Mom : eqType) (mom : Mom).
Local Notation C := F[i].
Local Notation key := (key F d P).
Local Notation mat := [lmodType C of 'M[C]_n.+1].
Local Notation kmodel := (model [eqType of key] Mom mat).
Let ko : [eqType of key] := kone F d pone.
Local Notation coef m k := (dget ko (mdata m) (Sym (k : [eqType of key]))).
Local Notation good := (good ko mom).
Local Notation lop := (lop ko mom).
Local Notation fcoef := (fcoef ko).
Local Notation fspan := (fspan ko).
Local Notation findep := (findep ko).
Local Notation rc := [rmorphism of real_complex F].
(* the coefficients range over a real vector space of matrices *)
Variables (B : seq 'M[C]_n.+1) (S : 'M[C]_n.+1 -> Prop).
Hypothesis BS : is_basis rc B S.
Implicit Types (m : kmodel) (fam : seq kmodel) (k v : key) (vars : seq key).

Lemma fcoef_cat (fam1 fam2 : seq kmodel) c (k : [eqType of key]) :
  fcoef (fam1 ++ fam2) c k = fcoef fam1 c k + fcoef fam2 (fun j => c (size fam1 + j)%N) k.
Proof.
elim: fam1 c => [|x fam1 IH] c; first by rewrite fcoef_nil add0r; apply: eq_fcoef.
rewrite [(x :: _) ++ _]/= !fcoef_cons IH -addrA; congr (_ + (_ + _)); apply: eq_fcoef.
Qed.

Lemma S_0 : S 0. Proof. by apply/BS.2; apply: span0. Qed.
Lemma S_D X Y : S X -> S Y -> S (X + Y).
Proof. by move=> /BS.2 h1 /BS.2 h2; apply/BS.2; apply: spanD. Qed.
Hint Resolve S_0 : core.
Definition block v : seq kmodel := [seq Mk [:: (Sym (v : [eqType of key]), A : mat)] [::] mom | A <- B].
Lemma degree_familyE vars : degree_family mom B vars = flatten [seq block v | v <- vars].
Proof. by []. Qed.
Lemma fcoef_block v c k : fcoef (block v) c k = if v == k then comb rc B c else 0.
Proof.
rewrite /block; elim: B c => [|A s IH] c; first by rewrite fcoef_nil comb_nil if_same.
rewrite [map _ _]/= fcoef_cons IH comb_cons /= /pk_eq /= eq_sym; case: eqP => // _.
by rewrite scaler0 addr0.
Qed.
Lemma In_flatten (T : Type) (x : T) ss : List.In x (flatten ss) <-> exists2 s0, List.In s0 ss & List.In x s0.
Proof.
elim: ss => [|s0 ss IH] /=; first by split=> // -[].
rewrite In_cat IH; split=> [[h|[s1 h1 h2]]|[s1 [->|h1] h2]]; first by exists s0; [left|].
- by exists s1; [right|].
- by left.
- by right; exists s1.
Qed.
Lemma degree_good vars m : List.In m (degree_family mom B vars) -> good m.
Proof.
rewrite degree_familyE => /In_flatten [s0 /In_map_iff [v _ ->]] /In_map_iff [A _ ->].
by split.
Qed.

(* functions of the key that are Hermitian and vanish outside [vars] *)
Lemma degree_span vars (f : key -> mat) :
  (exists c, forall k, f k = fcoef (degree_family mom B vars) c k) <->
  (forall k, f k != 0 -> k \in vars) /\ forall k, S (f k).
Proof.
have [bi bsp] := BS.
rewrite degree_familyE; elim: vars f => [|v vars IH] f /=.
  split=> [[c H]|[H _]].
    by split=> k; rewrite H fcoef_nil ?eqxx.
  exists (fun=> 0) => k; rewrite fcoef_nil; apply/eqP; apply: contraTT isT => /H.
  by rewrite in_nil.
split=> [[c H]|[H1 H2]].
  have [|h1 h2] := (IH (fun k => fcoef (flatten [seq block v | v <- vars]) (fun j => c (size (block v) + j)%N) k)).1.
    by eexists.
  have sv : span rc B (comb rc B c) by exists c.
  split=> k; rewrite H fcoef_cat fcoef_block.
    by rewrite inE [k == v]eq_sym; case: (v == k) => //=; rewrite add0r; apply: h1.
  by apply: S_D; [case: eqP => // _; apply/bsp|apply: h2].
have [c1 E1] := (bsp (f v)).1 (H2 v).
have [|c2 E2] := (IH (fun k => if k == v then 0 else f k)).2.
  split=> k.
    by case ekv: (k == v); rewrite ?eqxx // => /H1; rewrite inE ekv.
  by case: (k == v).
exists (fun j => if (j < size (block v))%N then c1 j else c2 (j - size (block v))%N) => k.
rewrite fcoef_cat (@eq_fcoef _ _ _ _ _ _ _ _ c1); last by move=> j ->.
rewrite [X in _ + X](@eq_fcoef _ _ _ _ _ _ _ _ c2); last by move=> j _; rewrite ltnNge leq_addr /= addKn.
by rewrite -E2 fcoef_block [v == k]eq_sym; case: eqP => [->|_]; rewrite ?addr0 ?add0r.
Qed.
Lemma degree_fspan vars m : good m ->
  fspan (degree_family mom B vars) m <->
  (forall k, coef m k != 0 -> k \in vars) /\ forall k, S (coef m k).
Proof. by move=> _; apply: (degree_span vars (fun k => coef m k)). Qed.

Lemma degree_indep vars : uniq vars -> findep (degree_family mom B vars).
Proof.
have [bi _] := BS.
rewrite degree_familyE; elim: vars => [|v vars IH] /=; first by move=> _ c _ j.
case/andP=> nv u c H.
have [|H1 _] := (degree_span vars (fcoef (flatten [seq block w | w <- vars]) (fun j => c (size (block v) + j)%N))).1.
  by eexists.
have c0 : comb rc B c = 0.
  have := H v; rewrite fcoef_cat fcoef_block eqxx (_ : fcoef _ _ v = 0) ?addr0 //.
  by apply/eqP; apply: contraNT nv; apply: H1.
have c2 : forall j, (j < size (flatten [seq block v | v <- vars]))%N -> c (size (block v) + j)%N = 0.
  apply: (IH u) => k; have := H k; rewrite fcoef_cat fcoef_block c0 if_same add0r //.
move=> j; rewrite size_cat => lj; case: (ltnP j (size (block v))) => [lb|gb].
  by apply: bi c0 _ _; rewrite size_map in lb.
by rewrite -(subnKC gb) c2 // -(ltn_add2l (size (block v))) subnKC.
Qed.

(* ---- symmetric polynomials ---- *)
Variable ns : forall N, seq 'rV[F]_N -> seq 'rV[F]_N.
Hypothesis NS : exact_nullspace ns.
Local Notation sapply := (sym_apply pone pc (Mom := Mom) (n := n)).
Local Notation is_sym := (symmetric ko sapply (@is_discrete F d n)).
Implicit Types (symmetries : seq (symmetry F d n)).

Definition satisfies_all symmetries m : Prop := forall s, List.In s symmetries -> is_sym s m.
(* a polynomial in the momenta, and nothing else, with the given degrees and powers *)
Definition polynomial (degs : seq nat) (ap : option (seq powers)) m : Prop := forall k, coef m k != 0 ->
  [/\ khop k = 0, kpar k = pone, (\sum_i kpow k i)%N \in degs & forall i : 'I_d, allowed_power ap i (kpow k i)].
Definition coefs_in m : Prop := forall k, S (coef m k).

Lemma symmetric_rlin s (c : F) (x y m : kmodel) : good x -> good y -> good m -> rlin ko c x y m ->
  is_sym s x -> is_sym s y -> is_sym s m.
Proof.
move=> gx gy gm r [x' ex hx] [y' ey hy]; have [tot lin] := sym_apply_lop pone pcK mom s.
have [m' [em _]] := tot m gm; exists m' => // k.
by rewrite (lin _ _ _ _ _ _ _ gx gy gm r ex ey em) hx hy r; case: (is_discrete s); rewrite ?scaler0 ?addr0.
Qed.
Lemma symmetric_part s e m me : good m -> hopfree pone m -> good me -> dpart pone e m me -> is_sym s m -> is_sym s me.
Proof.
move=> gm hf ge pe [m' em hm]; have [tot _] := sym_apply_lop pone pcK mom s.
have [me' [eme _]] := tot me ge; exists me' => // k.
have [_ G] := sym_apply_graded pcK pc1 gm hf em; rewrite (G _ _ _ ge pe eme) hm pe.
by case: (is_discrete s) => //; rewrite if_same.
Qed.

Lemma part_exists (p : pred key) m : good m -> exists m', good m' /\ forall k, coef m' k = if p k then coef m k else 0.
Proof.
case=> w s mo; exists (Mk [seq kv <- mdata m | p (den ko kv.1)] (mkeep m) (mmom m)); split; last first.
  move=> k; rewrite /=; elim: (mdata m) => [|kv l IH] /=; first by rewrite if_same.
  rewrite /pk_eq /=; case pk: (p (den ko kv.1)) => /=; rewrite /pk_eq /= IH; case: eqP => // e.
    by rewrite e pk.
  by rewrite e pk.
split=> //=.
  move: w; rewrite /wf_model /wf_dict /dkeys /=; elim: (mdata m) => //= kv l IH /andP[h1 h2].
  case: ifP => _ /=; rewrite IH // andbT; apply: contra h1.
  elim: l {IH h2} => //= kv' l IH; case: ifP => _ /=; rewrite !inE; last by move=> /IH ->; rewrite orbT.
  by case/orP => [->//|/IH ->]; rewrite orbT.
by move: s; rewrite /all_sym /=; elim: (mdata m) => //= kv l IH /andP[h1 h2]; case: ifP => _ /=; rewrite ?h1 IH.
Qed.

(* ---- constrain_family accepts the full family of one degree ---- *)
Lemma basis_nz (A : 'M[C]_n.+1) : List.In A B -> A != 0.
Proof.
have [bi _] := BS.
move=> /(In_nth A) [j lj ->]; apply/eqP => e.
have Z : comb rc B (fun i => (i == j)%:R) = 0 by rewrite comb_delta // (set_nth_default A).
by have /eqP := bi _ Z j lj; rewrite eqxx oner_eq0.
Qed.

Lemma apply_inverse_left (g : pge F d n) (m : kmodel) : all_sym m -> pge_wf g ->
  exists m1 m2, [/\ pge_apply pone pc (pge_inv g) m = Ok m1, pge_apply pone pc g m1 = Ok m2
    & forall a : assignment F d pone pmul pc, ker a m2 = ker a m].
Proof.
move=> s [u w].
have [m1 [E1 _ s1 _ e1]] := C02_apply_value pone pmul pcK (pge_inv g) s.
have [m2 [E2 _ s2 _ e2]] := C02_apply_value pone pmul pcK g s1.
exists m1, m2; split=> // a.
have sU : same_U g (pge_inv g) by rewrite /same_U /=; case: (pU g).
rewrite e2 e1 -act_mul // -pull_mul //=; last by rewrite unitmx_inv.
have [ER Ec Ea EU] := pge_mulgV (conj u w).
have -> : pull (pge_mul g (pge_inv g)) (as_k a) = as_k a.
  by rewrite /pull Ec ER /= invmx1 mul1mx.
rewrite /act Ec Ea EU /= scale1r; case: a => *; case: (pU g) => [U|] //=.
by rewrite mul1mx dagger1 mulmx1.
Qed.

Lemma degree_accepts e vars symmetries :
  (forall k, k \in vars <-> plain pone k /\ deg k = e) -> (0 < size symmetries)%N ->
  (forall s, List.In s symmetries -> sym_has_U s) ->
  (forall g, List.In (Discrete g) symmetries -> pge_wf g) ->
  (forall g m m1, List.In (Discrete g) symmetries -> good m -> hopfree pone m -> coefs_in m ->
     pge_apply pone pc (pge_inv g) m = Ok m1 -> coefs_in m1) ->
  exists result, constrain_family ko sapply (@is_discrete F d n) (@sym_has_U F d n) ns symmetries
    (degree_family mom B vars) = Ok result.
Proof.
move=> full s0 hU wf keep; set fam := degree_family _ _ _.
have gd x : List.In x fam -> good x by apply: degree_good.
have [->|n0] : fam = [::] \/ (0 < size fam)%N by case: (fam); [left|right].
  by eexists.
have LS s : List.In s symmetries -> lin_op ko mom (sapply s) by move=> _; apply: (sym_apply_linear pone pcK mom s).
apply/(@C33_accepts_iff _ _ _ _ ko _ _ sapply (@is_discrete F d n) (@sym_has_U F d n) mom) => //; split=> // hd m k hm kd.
have [g hg] : exists g, List.In (Discrete g) symmetries.
  elim: (symmetries) hd => //= -[g|R U] l IH /=; first by exists g; left.
  by case/IH => g hg; exists g; right.
have gm := gd m hm; have [wm sm mm] := gm.
have [v hv [A hA Em]] : exists2 v, v \in vars & exists2 A, List.In A B & m = Mk [:: (Sym (v : [eqType of key]), A : mat)] [::] mom.
  move: hm; rewrite /fam degree_familyE => /In_flatten [s1 /In_map_iff [v hv ->]] /In_map_iff [A hA ->].
  by exists v; [apply/In_mem|exists A].
have cm x : coef m x = if x == v then A else 0 by rewrite Em /= /pk_eq /=.
have kv : k = v by move: kd; rewrite Em inE => /eqP.
have pl x : coef m x != 0 -> plain pone x /\ deg x = e.
  rewrite cm; case: (eqVneq x v) => [-> _|_]; last by rewrite eqxx.
  by apply/full.
have hf : hopfree pone m by move=> x /pl [].
have pe : dpart pone e m m by move=> x; case: eqP => // ne; case: (eqVneq (coef m x) 0) => // /pl [].
have [m1 [m2 [E1 E2 E12]]] := apply_inverse_left sm (wf g hg).
have [tot1 _] := pge_apply_lop pone pcK mom (pge_inv g).
have [tot2 _] := pge_apply_lop pone pcK mom g.
have gm1 : good m1 by have [m1' [E1' ?]] := tot1 m gm; move: E1'; rewrite E1 => -[->].
have gm2 : good m2 by have [m2' [E2' ?]] := tot2 m1 gm1; move: E2'; rewrite E2 => -[->].
have [hf1 G1] := graded_pge pcK pc1 gm hf E1.
have pe1 := G1 _ _ _ gm pe E1.
have [hf2 _] := graded_pge pcK pc1 gm1 hf1 E2.
have c2 x : coef m2 x = coef m x.
  by apply: (values_determine_model (pmul := pmul) (pc := pc) gm2 gm hf2 hf) => w; apply: E12.
have Sm : coefs_in m.
  by move=> x; rewrite cm; case: (x == v) => //; apply/BS.2; apply: span_mem.
have hm1 : coefs_in m1 by apply: keep E1.
have [c Hc] : fspan fam m1.
  apply/degree_fspan => //; split=> // x nz; apply/full; split; first exact: hf1.
  by apply/eqP; apply: contraNT nz => ne; rewrite (pe1 x) (negPf ne).
have [fam' ef] : exists fam', mapM (sapply (Discrete g)) fam = Ok fam'.
  by apply: mapM_total => x /gd; have [tot _] := LS _ hg; apply: tot.
have [_ lin] := LS _ hg; have H2 := lin _ _ _ _ _ gd gm1 Hc ef E2.
have nz : fcoef fam' c k != 0 by rewrite -H2 c2 cm kv eqxx; apply: basis_nz.
have [m' hm' nz'] : exists2 m', List.In m' fam' & coef m' k != 0.
  elim: (fam') c nz {Hc H2 ef} => [|x l IH] c; first by rewrite fcoef_nil eqxx.
  rewrite fcoef_cons; case: (eqVneq (coef x k) 0) => [->|nx _]; last by exists x; [left|].
  by rewrite scaler0 add0r => /IH [m' h1 h2]; exists m'; [right|].
have [m0 h0 e0] := mapM_In ef hm'.
exists (Discrete g), m0, m'; split=> //.
apply: contraNT nz'; elim: (mdata m') => //= kx l IH; rewrite inE negb_or => /andP[h1 h2].
by rewrite /pk_eq /= (negPf h1) IH.
Qed.

Section Pretty.
Variables (pretty : seq kmodel -> res (seq kmodel)) (prettify : bool).
(* C39: bringing the basis to reduced row echelon form keeps the span *)
Hypothesis pretty_span : prettify -> forall fam fam', (forall m, List.In m fam -> good m) ->
  pretty fam = Ok fam' -> (forall m, List.In m fam' -> good m) /\ forall m, fspan fam' m <-> fspan fam m.
Local Notation step := (degree_step pone mom sapply (@is_discrete F d n) (@sym_has_U F d n) ns pretty B).
Local Notation degrees_family := (all_degrees pone mom sapply (@is_discrete F d n) (@sym_has_U F d n) ns pretty B).

Lemma degree_stepP symmetries ap nmom e fam : (0 < d)%N -> step symmetries ap nmom prettify e = Ok fam ->
  (forall m, List.In m fam -> good m) /\
  forall m, good m -> (fspan fam m <-> [/\ polynomial [:: e] ap m, coefs_in m & satisfies_all symmetries m]).
Proof.
move=> d0; rewrite /degree_step; case ev: continuum_variables => [vars|] //=.
case ec: constrain_family => [res|] //= H.
have gd x : List.In x (degree_family mom B vars) -> good x by apply: degree_good.
have LS s : List.In s symmetries -> lin_op ko mom (sapply s) by move=> _; apply: (sym_apply_linear pone pcK mom s).
have [gr fr] := C32_constrain_family NS LS gd ec.
have [g' f'] : (forall m, List.In m fam -> good m) /\ forall m, good m -> (fspan fam m <-> fspan res m).
  move: H; case pb: prettify; last by case=> <-.
  case ep: (pretty res) => [q|] //=; case: ifP => // _ [<-].
  by have [h1 h2] := pretty_span pb gr ep; split.
split=> // m gm; rewrite f' // fr // degree_fspan //.
split=> [[[h1 h2] h3]|[h1 h2 h3]]; split=> //.
  by move=> k /h1 /(C34_members d0 ev) [? ? ? ?]; split=> //; rewrite inE; apply/eqP.
split=> // k /h1 [? ? h ?]; apply/(C34_members d0 ev); split=> //.
by move: h; rewrite inE => /eqP.
Qed.

Lemma fspan_cat fam1 fam2 m : (forall x, List.In x fam1 -> good x) -> (forall x, List.In x fam2 -> good x) -> good m ->
  fspan (fam1 ++ fam2) m <-> exists m1 m2, [/\ good m1, good m2, fspan fam1 m1, fspan fam2 m2 &
     rlin ko (1 : F) m1 m2 m].
Proof.
move=> g1 g2 gm.
have ex fam c : (forall x, List.In x fam -> good x) -> exists2 m', good m' & is_comb ko fam c m'.
  case: (posnP (size fam)) => [/size0nil -> _|n0 gf].
    by exists (Mk [::] [::] mom : kmodel) => // k; rewrite fcoef_nil.
  have [y [_ gy cy]] := combine_row (\row_(j < size fam) c j) n0 gf.
  by exists y => // k; rewrite cy -(fcoef_row ko fam c).
split=> [[c H]|[m1 [m2 [gm1 gm2 [c1 E1] [c2 E2] r]]]].
  have [m1 gm1 E1] := ex fam1 c g1; have [m2 gm2 E2] := ex fam2 (fun j => c (size fam1 + j)%N) g2.
  exists m1, m2; split=> //; [by exists c|by eexists|].
  by move=> k; rewrite H fcoef_cat E1 E2 scale1r.
exists (fun j => if (j < size fam1)%N then c1 j else c2 (j - size fam1)%N) => k.
rewrite fcoef_cat (@eq_fcoef _ _ _ _ _ _ _ _ c1); last by move=> j ->.
rewrite [X in _ + X](@eq_fcoef _ _ _ _ _ _ _ _ c2); last by move=> j _; rewrite ltnNge leq_addr /= addKn.
by rewrite r E1 E2 scale1r.
Qed.

Lemma steps_spec symmetries ap nmom degs fs : (0 < d)%N ->
  mapM (step symmetries ap nmom prettify) degs = Ok fs ->
  (forall m, List.In m (flatten fs) -> good m) /\
  forall m, good m -> (fspan (flatten fs) m <-> [/\ polynomial degs ap m, coefs_in m & satisfies_all symmetries m]).
Proof.
move=> d0; elim: degs fs => [|e degs IH] fs /=.
  case=> <- /=; split=> // m gm; split=> [[c H]|[H _ _]]; last first.
    exists (fun=> 0) => k; rewrite fcoef_nil; apply/eqP; apply: contraTT isT => /H [].
    by rewrite in_nil.
  have z k : coef m k = 0 by rewrite H fcoef_nil.
  split=> [k|k|s _]; rewrite ?z ?eqxx //.
  have r : rlin ko 1 m m m by move=> k; rewrite z scaler0 addr0.
  have [tot lin] := sym_apply_lop pone pcK mom s; have [m' [em gm']] := tot m gm.
  exists m' => // k; have := lin _ _ _ _ _ _ _ gm gm gm r em em em k; rewrite scale1r z if_same => /eqP.
  by rewrite -[X in X == _]addr0 (inj_eq (addrI _)) eq_sym => /eqP.
case ef: (step symmetries ap nmom prettify e) => [fam|] //=.
case eg: (mapM _ degs) => [gs|] //= [<-] /=; have [g1 f1] := degree_stepP d0 ef; have [g2 f2] := IH _ eg.
split=> [m /In_cat [/g1|/g2] //|m gm]; rewrite fspan_cat //; split.
  case=> m1 [m2 [gm1 gm2 /(f1 _ gm1) [p1 h1 s1] /(f2 _ gm2) [p2 h2 s2] r]]; split.
  - move=> k; rewrite r scale1r; case: (eqVneq (coef m1 k) 0) => [->|/p1 [? ? h ?] _].
      by rewrite add0r => /p2 [? ? h ?]; split=> //; rewrite inE h orbT.
    by split=> //; move: h; rewrite !inE => ->.
  - by move=> k; rewrite r scale1r; apply: S_D; [apply: h1|apply: h2].
  - by move=> s hs; apply: (symmetric_rlin gm1 gm2 gm r); [apply: s1|apply: s2].
case=> pm hm sm.
have [me [ge Ee]] := part_exists (fun k : key => deg k == e) gm.
have [mr [gr Er]] := part_exists (fun k : key => deg k != e) gm.
have hf : hopfree pone m by move=> k /pm []; split.
have se : satisfies_all symmetries me by move=> s hs; apply: (symmetric_part gm hf ge Ee (sm s hs)).
exists me, mr; split=> //.
- apply/(f1 _ ge); split=> // k; rewrite Ee; last by case: ifP.
  case: (eqVneq (deg k) e) => [dk|_]; last by rewrite eqxx.
  by move=> /pm [? ? _ ?]; split=> //; rewrite inE -dk.
- apply/(f2 _ gr); split=> // [k|k|s hs].
  + rewrite Er; case: (eqVneq (deg k) e) => [_|dk]; rewrite ?eqxx //.
    by move=> /pm [? ? h ?]; split=> //; move: h; rewrite inE (negPf dk).
  + by rewrite Er; case: ifP.
  + apply: (@symmetric_rlin s (-1) me m mr) => //; [|exact: se|exact: sm].
    by move=> k; rewrite Er Ee; case: eqP => _ /=; rewrite ?scaler0 ?add0r // rmorphN rmorph1 scaleN1r addNr.
- move=> k; rewrite Er Ee scale1r; by case: eqP => _ /=; rewrite ?addr0 ?add0r.
Qed.

Lemma degrees_span symmetries tp ap nmom result : (0 < d)%N ->
  degrees_family symmetries tp ap nmom prettify = Ok result ->
  (forall m, List.In m result -> good m) /\
  forall m, good m ->
    (fspan result m <-> [/\ polynomial (degrees tp) ap m, coefs_in m & satisfies_all symmetries m]).
Proof. by move=> d0; rewrite /all_degrees; case ef: (mapM _ _) => [fs|] //= [<-]; apply: steps_spec ef. Qed.
(* with all powers allowed and valid symmetries the function returns *)
Lemma degrees_accepts symmetries tp nmom : (0 < d)%N -> (d <= nmom)%N -> (0 < size symmetries)%N ->
  (forall s, List.In s symmetries -> sym_has_U s) ->
  (forall g, List.In (Discrete g) symmetries -> pge_wf g) ->
  (forall g m m1, List.In (Discrete g) symmetries -> good m -> hopfree pone m -> coefs_in m ->
     pge_apply pone pc (pge_inv g) m = Ok m1 -> coefs_in m1) -> prettify = false ->
  exists result, degrees_family symmetries tp None nmom prettify = Ok result.
Proof.
move=> d0 dn s0 hU wf keep pf.
have [|fs E] := mapM_total (f := step symmetries None nmom prettify) (s := degrees tp).
  move=> e _; rewrite /degree_step pf.
  have [|vars ev] := (C34_rejects F d pone e None nmom).2; first by split.
  rewrite ev /=; have [|res ->] := @degree_accepts e vars symmetries _ s0 hU wf keep; last by eexists.
  move=> k; rewrite (C34_members d0 ev); split=> [[]//|[[h1 h2] h3]]; by split.
by rewrite /all_degrees E /=; eexists.
Qed.

(* linear independence in every positive dimension *)
Lemma degrees_independent symmetries tp ap nmom result : (0 < d)%N -> uniq (degrees tp) ->
  (forall l s, ap = Some l -> List.In (Only s) l -> uniq s) -> prettify = false ->
  degrees_family symmetries tp ap nmom prettify = Ok result -> findep result.
Proof.
move=> d0 ud uap pf; rewrite /all_degrees.
case ef: (mapM _ _) => [fs|] //= [<-].
elim: (degrees tp) fs ud ef => [|e degs IH] fs /=; first by move=> _ [<-] c _ j.
case/andP => ne ud; case es: (step symmetries ap nmom prettify e) => [fam|] //=.
case eg: (mapM _ degs) => [gs|] //= [<-] /=.
have [g1 f1] := degree_stepP d0 es; have [g2 f2] := steps_spec d0 eg.
have i2 := IH gs ud eg.
have i1 : findep fam.
  move: es; rewrite /degree_step pf; case ev: continuum_variables => [vars|] //=.
  case ec: constrain_family => [r|] //= [<-].
  apply: (C32_independent NS (fun m => @degree_good vars m) _ ec).
  exact: degree_indep (C34_once d0 uap ev).
have sup1 x k : List.In x fam -> coef x k != 0 -> deg k = e.
  move=> hx nz; have [H _ _] := (f1 x (g1 x hx)).1 (fspan_member ko hx).
  by have [_ _] := H k nz; rewrite inE => /eqP.
have sup2 x k : List.In x (flatten gs) -> coef x k != 0 -> deg k \in degs.
  by move=> hx nz; have [H _ _] := (f2 x (g2 x hx)).1 (fspan_member ko hx); have [] := H k nz.
have zero (fam0 : seq kmodel) c (k : [eqType of key]) : (forall x, List.In x fam0 -> coef x k = 0) -> fcoef fam0 c k = 0.
  elim: fam0 c => [|x l' IH'] c H; first by rewrite fcoef_nil.
  by rewrite fcoef_cons H ?scaler0 ?add0r ?IH' //; [move=> y h; apply: H; right|left].
move=> c H.
have Z1 (k : [eqType of key]) : fcoef fam c k = 0.
  case: (eqVneq (deg k) e) => [dk|nk].
    have := H k; rewrite fcoef_cat [X in _ + X]zero ?addr0 // => x hx; apply/eqP; apply: contraNT ne => /(sup2 x k hx).
    by rewrite dk.
  by apply: zero => x hx; apply/eqP; apply: contraNT nk => /(sup1 x k hx) ->.
have Z2 (k : [eqType of key]) : fcoef (flatten gs) (fun j => c (size fam + j)%N) k = 0.
  by have := H k; rewrite fcoef_cat Z1 add0r.
move=> j; rewrite size_cat => lj; case: (ltnP j (size fam)) => lf; first exact: i1 Z1 j lf.
by have := i2 _ Z2 (j - size fam)%N; rewrite subnKC //; apply; rewrite -(ltn_add2l (size fam)) subnKC.
Qed.
End Pretty.

End Hamiltonian.

(* ---- continuum_hamiltonian ---- *)
Section Continuum35.
Variables (F : rcfType) (d n : nat) (P : eqType) (pone : P) (pmul : P -> P -> P) (pc : P -> P).
Hypothesis pcK : involutive pc.
Hypothesis pc1 : pc pone = pone.
Variable (Mom : eqType) (mom : Mom).
Local Notation C := F[i].
Local Notation key := (key F d P).
Local Notation mat := [lmodType C of 'M[C]_n.+1].
Local Notation kmodel := (model [eqType of key] Mom mat).
Let ko : [eqType of key] := kone F d pone.
Local Notation coef m k := (dget ko (mdata m) (Sym (k : [eqType of key]))).
Local Notation good := (good ko mom).
Local Notation fspan := (fspan ko).
Local Notation findep := (findep ko).
Local Notation rc := [rmorphism of real_complex F].
Local Notation polynomial := (@polynomial F d n P pone Mom).
Local Notation satisfies_all := (@satisfies_all F d n P pone pc Mom).
Variable ns : forall N, seq 'rV[F]_N -> seq 'rV[F]_N.
Hypothesis NS : exact_nullspace ns.
Local Notation sapply := (sym_apply pone pc (Mom := Mom) (n := n)).
Implicit Types (m : kmodel) (symmetries : seq (symmetry F d n)).
Definition hermitian m : Prop := forall k, dagger (coef m k : 'M[C]_n.+1) = coef m k.

Lemma hermitian_basis : is_basis rc (matrix_basis n.+1 false false false) (fun X : 'M[C]_n.+1 => dagger X = X).
Proof.
have [bi bs] := C23_matrix_basis F n.+1 false false false; split=> // X.
by rewrite -bs; split=> [h|[]//]; split.
Qed.
(* the action of a group element keeps the coefficients Hermitian *)
Lemma keeps_hermitian (g : pge F d n) m m1 : good m -> hopfree pone m -> hermitian m ->
  pge_apply pone pc g m = Ok m1 -> hermitian m1.
Proof.
move=> gm hf Hm E1; have [w sm mo] := gm.
have [tot1 _] := pge_apply_lop pone pcK mom g.
have gm1 : good m1 by have [m1' [E1' ?]] := tot1 m gm; move: E1'; rewrite E1 => -[->].
have [hf1 _] := graded_pge pcK pc1 gm hf E1.
apply: (hermitian_coefficients (pmul := pmul) (pc := pc) gm1 hf1) => v.
have Ha : hermitian_at_all_k pone pmul pc m.
  move=> a.
  have V kv : List.In kv (mdata m) -> dagger (kv.2 : 'M[C]_n.+1) = kv.2 /\ (kv.2 != 0 -> plain pone (den ko kv.1)).
    move=> h; have e : coef m (den ko kv.1) = kv.2 by rewrite -(dget_In w h); apply: dget_den.
    by rewrite -e; split; [apply: Hm|apply: hf].
  rewrite /KeysProofs.ker /ModelCore.meval; elim: (mdata m) V => [|kv l IH] V; first by rewrite big_nil dagger0.
  rewrite big_cons daggerD {}IH => [|x h]; last by apply: V; right.
  have [//|hd hp] := V kv; first by left.
  congr (_ + _); rewrite daggerZ hd; case: (eqVneq kv.2 0) => [->|/hp [h0 hq]]; rewrite ?scaler0 //.
  by rewrite /kev h0 hq mul0mx mxE as_cis0 as_par1 !mulr1 pev_conj.
have [m1' [E1' H]] := C03_apply_preserves_hermiticity pcK g sm Ha.
by move: E1'; rewrite E1 => -[->]; apply: H.
Qed.

Section Pretty35.
Variables (pretty : seq kmodel -> res (seq kmodel)) (prettify : bool).
Hypothesis pretty_span : prettify -> forall fam fam', (forall m, List.In m fam -> good m) ->
  pretty fam = Ok fam' -> (forall m, List.In m fam' -> good m) /\ forall m, fspan fam' m <-> fspan fam m.
Local Notation continuum := (continuum_hamiltonian pone mom sapply (@is_discrete F d n) (@sym_has_U F d n) ns pretty).

(* C35: exactly the symmetric polynomials with Hermitian coefficients *)
Theorem C35_continuum_hamiltonian symmetries tp ap nmom result : (0 < d)%N ->
  continuum symmetries tp ap nmom prettify = Ok result ->
  forall m, good m ->
    (fspan result m <-> [/\ polynomial (degrees tp) ap m, hermitian m & satisfies_all symmetries m]).
Proof.
move=> d0; rewrite /continuum_hamiltonian; case es: {1}symmetries => [//|s l]; case: ifP => // _.
by case/(degrees_span pcK pc1 hermitian_basis NS pretty_span d0).
Qed.
(* ... and every member is one of them *)
Corollary C35_members symmetries tp ap nmom result m : (0 < d)%N ->
  continuum symmetries tp ap nmom prettify = Ok result -> List.In m result ->
  [/\ good m, polynomial (degrees tp) ap m, hermitian m & satisfies_all symmetries m].
Proof.
move=> d0 E hm; suff gm : good m.
  by have /(C35_continuum_hamiltonian d0 E gm) [] := fspan_member ko hm.
move: E hm; rewrite /continuum_hamiltonian; case es: {1}symmetries => [//|s l]; case: ifP => // _.
by case/(degrees_span pcK pc1 hermitian_basis NS pretty_span d0) => H _; apply: H.
Qed.
(* with all powers allowed and valid symmetries the function returns *)
Theorem C35_accepts symmetries tp nmom : (0 < d)%N -> (d <= nmom)%N -> (0 < size symmetries)%N ->
  (forall s, List.In s symmetries -> sym_has_U s) ->
  (forall g, List.In (Discrete g) symmetries -> pge_wf g) -> prettify = false ->
  exists result, continuum symmetries tp None nmom prettify = Ok result.
Proof.
move=> d0 dn s0 hU wf pf; rewrite /continuum_hamiltonian; case es: {1}symmetries => [|s l]; first by rewrite es in s0.
rewrite hU /=; last by rewrite es; left.
apply: (degrees_accepts pmul pcK pc1 hermitian_basis ns pretty tp d0 dn s0 hU wf _ pf) => g m m1 _ gm hf hm.
exact: keeps_hermitian.
Qed.

(* C36: linear independence in every positive dimension *)
Theorem C36_independent_partial symmetries tp ap nmom result : (0 < d)%N -> uniq (degrees tp) ->
  (forall l s, ap = Some l -> List.In (Only s) l -> uniq s) -> prettify = false ->
  continuum symmetries tp ap nmom prettify = Ok result -> findep result.
Proof.
move=> d0 ud uap pf; rewrite /continuum_hamiltonian; case: {1}symmetries => [//|s l]; case: ifP => // _.
exact: (degrees_independent pcK pc1 hermitian_basis NS pretty_span d0 ud uap pf).
Qed.
End Pretty35.
End Continuum35.


(* ---- C36 fails in zero dimensions: every degree contributes the same constants ---- *)
Section ZeroDim.
Variables (F : rcfType) (ns : forall N, seq 'rV[F]_N -> seq 'rV[F]_N).
Hypothesis NS : exact_nullspace ns.
Local Notation mat1 := [lmodType F[i] of 'M[F[i]]_1].
Local Notation key0 := (key F 0 unit_eqType).
Local Notation kmodel := (model [eqType of key0] unit_eqType mat1).
Let k0 : [eqType of key0] := kone F 0 (tt : unit_eqType).
Definition trivial_symmetry : symmetry F 0 0 := Discrete (Pge 1%:M false false (Some 1%:M) false).
Definition constant : kmodel := Mk [:: (Sym k0, 1%:M : mat1)] [::] tt.
Local Notation continuum0 tp := (continuum_hamiltonian (tt : unit_eqType) (tt : unit_eqType)
  (fun s m => sym_apply tt id s m) (@is_discrete F 0 0) (@sym_has_U F 0 0) ns (fun fam : seq kmodel => Ok fam)
  [:: trivial_symmetry] tp None 0 false).

Lemma key0P (k : key0) : k = k0.
Proof.
case: k => [[p h] []]; congr (_, _, _); first by apply/ffunP => -[].
by apply/rowP => -[].
Qed.
Lemma id_wf : pge_wf (Pge 1%:M false false (Some 1%:M) false : pge F 0 0).
Proof. by split; rewrite /= ?unitmx1 //; split; rewrite dagger1 mulmx1. Qed.

Lemma zero_dim_step : exists2 fam : seq kmodel, (0 < size fam)%N &
  forall e, degree_step (tt : unit_eqType) (tt : unit_eqType) (fun s m => sym_apply tt id s m) (@is_discrete F 0 0)
    (@sym_has_U F 0 0) ns (fun fam : seq kmodel => Ok fam) (matrix_basis 1 false false false) [:: trivial_symmetry] None 0 false e = Ok fam.
Proof.
have [|||||fam E] := @degree_accepts F 0 0 unit_eqType tt (fun _ _ => tt) id (fun=> erefl) erefl unit_eqType tt _ _ (hermitian_basis F 0) ns 0 [:: k0] [:: trivial_symmetry].
- move=> k; rewrite (key0P k) inE eqxx; split=> // _; split; last by rewrite /deg big_ord0.
  by split.
- by [].
- by move=> s [<-|//].
- by move=> g [[<-]|//]; apply: id_wf.
- move=> g m m1 _; exact: (@keeps_hermitian F 0 0 unit_eqType tt (fun _ _ => tt) id (fun=> erefl) erefl unit_eqType tt (pge_inv g) m m1).
exists fam; last by move=> e; rewrite /degree_step /= /continuum_variables /= E.
have gd (x : kmodel) : List.In x (degree_family tt (matrix_basis 1 false false false) [:: (k0 : key0)]) -> good k0 tt x.
  exact: (@degree_good F 0 0 unit_eqType tt unit_eqType tt _ [:: (k0 : key0)]).
have H := @C32_models F 0 0 unit_eqType tt id (fun=> erefl) unit_eqType tt ns NS _ _ _ gd E.
have gc : good k0 tt constant by [].
have cE (k : key0) : dget k0 (mdata constant) (Sym (k : [eqType of key0])) = (1%:M : mat1).
  by rewrite /= /pk_eq /= (key0P k) eqxx.
have : fspan k0 fam constant.
  apply/(H _ gc); split.
    apply/(@degree_fspan F 0 0 unit_eqType tt unit_eqType tt _ _ (hermitian_basis F 0) [:: (k0 : key0)]) => //.
    split=> k; first by rewrite (key0P k) mem_head.
    by rewrite cE dagger1.
  move=> s [<-|//].
  have sc : all_sym constant by [].
  have [m' [Em' w' s' mo' ev']] := @C02_apply_value F 0 0 unit_eqType tt (fun _ _ => tt) id (fun=> erefl) unit_eqType (Pge 1%:M false false (Some 1%:M) false) constant sc.
  exists m' => // k.
  have ev (v : 'cV[F]_0) := ev' (@at_point F 0 unit_eqType tt (fun _ _ => tt) id v).
  have := ev 0; rewrite /KeysProofs.ker.
  have mE (x : kmodel) : wf_model k0 x -> meval k0 (kev (@at_point F 0 unit_eqType tt (fun _ _ => tt) id 0)) x = dget k0 (mdata x) (Sym k0).
    move=> wx; rewrite (coefE k0 wx) /ModelCore.meval; apply: eq_bigr => kv _; congr (_ *: _).
    by rewrite /= (key0P (den k0 kv.1)) eqxx kev_point /pev big_ord0.
  have -> : at_k (@at_point F 0 unit_eqType tt (fun _ _ => tt) id 0) (pull (Pge 1%:M false false (Some 1%:M) false : pge F 0 0) 0) = @at_point F 0 unit_eqType tt (fun _ _ => tt) id 0.
    by rewrite /at_k /at_point /= (_ : pull _ 0 = 0) //; apply/colP => -[].
  rewrite !mE // (key0P k) => ->; rewrite /act /sandwich /= scale1r mul1mx dagger1 mulmx1.
  by rewrite /pk_eq /= eqxx.
case: (fam) => // -[c /(_ k0)]; rewrite cE fcoef_nil => /eqP.
by rewrite (negPf (matrix_nonzero1 _ _)).
Qed.

(* total_power=[0, 1] (or 1) returns the constant term twice *)
Theorem C36_zero_dim_refuted : exists2 result, continuum0 (inl 1%N) = Ok result & ~ findep k0 result.
Proof.
have [fam f0 E] := zero_dim_step; exists (fam ++ fam).
  by rewrite /continuum_hamiltonian /= /all_degrees /= !E /= cats0.
have D : forall k, fcoef k0 (fam ++ fam) (fun j => if (j < size fam)%N then 1 else -1) k = 0.
  move=> k; rewrite (@fcoef_cat F 0 0 unit_eqType tt unit_eqType).
  rewrite (@eq_fcoef _ _ _ _ _ _ _ _ (fun=> 1)); last by move=> j ->.
  rewrite [X in _ + X](@eq_fcoef _ _ _ _ _ _ _ _ (fun=> -1)); last by move=> j _; rewrite ltnNge leq_addr.
  rewrite /FamilyProofs.fcoef -big_split big1 // => j _ /=.
  by rewrite rmorphN rmorph1 scaleN1r scale1r subrr.
move=> /(_ _ D 0%N); rewrite size_cat f0 => H.
have /eqP : (1 : F) = 0 by apply: H; rewrite ltn_addr.
by rewrite oner_eq0.
Qed.
(* ... and total_power=[1] a constant, which has degree zero (C35) *)
Theorem C35_zero_dim_refuted : exists2 result, continuum0 (inr [:: 1%N]) = Ok result &
  exists m, List.In m result /\ ~ polynomial (tt : unit_eqType) [:: 1%N] None m.
Proof.
have [fam f0 E] := zero_dim_step; exists fam; first by rewrite /continuum_hamiltonian /= /all_degrees /= !E /= cats0.
have [m [hm [k nz]]] : exists m : kmodel, List.In m fam /\ exists k, dget k0 (mdata m) (Sym k) != 0.
  move: (E 0%N); rewrite /degree_step /continuum_variables /=.
  case ec: constrain_family => [r|] //= [er]; subst r.
  have gd (x : kmodel) : List.In x (degree_family tt (matrix_basis 1 false false false) [:: (k0 : key0)]) -> good k0 tt x.
    exact: (@degree_good F 0 0 unit_eqType tt unit_eqType tt _ [:: (k0 : key0)]).
  have fi := @degree_indep F 0 0 unit_eqType tt unit_eqType tt _ _ (hermitian_basis F 0) [:: (k0 : key0)] isT.
  have I := C32_independent NS gd fi ec.
  case: (fam) f0 I => // m l _ I; exists m; split; first by left.
  exists k0; apply/negP => /eqP z.
  suff /(I (fun j => (j == 0%N)%:R)) /(_ 0%N isT) /eqP : forall k, fcoef k0 (m :: l) (fun j => (j == 0%N)%:R) k = 0.
    by rewrite eqxx oner_eq0.
  move=> k; rewrite fcoef_cons (key0P k) z scaler0 add0r; apply: big1 => j _; by rewrite scale0r.
exists m; split=> // /(_ k nz) [_ _]; by rewrite big_ord0.
Qed.
End ZeroDim.

Print Assumptions C34_members.
Print Assumptions C35_continuum_hamiltonian.
Print Assumptions C35_accepts.
Print Assumptions C36_zero_dim_refuted.

(* Non-trivial cases *)
Example C34_example (F : rcfType) :
  @continuum_variables F 2 unit_eqType tt 2 (Some [:: UpTo 2; Only [:: 0; 1]%N; UpTo 7]) 3 =
  Ok [:: monomial F 2 (tt : unit_eqType) [:: 1; 1]%N; monomial F 2 (tt : unit_eqType) [:: 2; 0]%N].
Proof. by []. Qed.

(* one dimension, inversion, scalar Hamiltonians up to second order: k^2 belongs to
   the family returned and k does not *)
Section Inversion.
Variables (F : rcfType).
Local Notation mat1 := [lmodType F[i] of 'M[F[i]]_1].
Local Notation key1 := (key F 1 unit_eqType).
Local Notation kmodel := (model [eqType of key1] unit_eqType mat1).
Let k1 : [eqType of key1] := kone F 1 (tt : unit_eqType).
Definition mono (e : nat) : kmodel := Mk [:: (Sym (monomial F 1 (tt : unit_eqType) [:: e] : [eqType of key1]), 1%:M : mat1)] [::] tt.
Local Notation continuum1 tp := (continuum_hamiltonian (tt : unit_eqType) (tt : unit_eqType)
  (fun s m => sym_apply tt id s m) (@is_discrete F 1 0) (@sym_has_U F 1 0) (fun N => @ker_rows F N) (fun fam : seq kmodel => Ok fam)
  [:: Discrete (inversion1 F)] tp None 1 false).

Lemma mono_ker e v : ker (@at_point F 1 unit_eqType tt (fun _ _ => tt) id v) (mono e) = ((v 0 0) ^+ e)%:C *: 1%:M.
Proof.
rewrite /KeysProofs.ker /ModelCore.meval /= big_seq1 kev_point /pev big_ord_recl big_ord0 mulr1 /=.
by rewrite /kpow /= ffunE /= rmorphX.
Qed.
Lemma mono_hopfree e : hopfree (tt : unit_eqType) (mono e).
Proof. by move=> k; rewrite /= /pk_eq /=; case: ifP => [/eqP ->|_] //; rewrite eqxx. Qed.
Lemma mono_symmetric e : symmetric k1 (fun s m => sym_apply tt id s m) (@is_discrete F 1 0) (Discrete (inversion1 F)) (mono e) <-> ~~ odd e.
Proof.
have gm : good k1 tt (mono e) by [].
have sc : all_sym (mono e) by [].
have [m' [Em' w' s' mo' ev']] := @C02_apply_value F 1 0 unit_eqType tt (fun _ _ => tt) id (fun=> erefl) unit_eqType (inversion1 F) (mono e) sc.
have gm' : good k1 tt m' by [].
have [hf' _] := @graded_pge F 1 0 unit_eqType tt id (fun=> erefl) erefl unit_eqType tt (inversion1 F) _ _ gm (@mono_hopfree e) Em'.
have V v : ker (@at_point F 1 unit_eqType tt (fun _ _ => tt) id v) m' = ((- v 0 0) ^+ e)%:C *: 1%:M.
  rewrite ev' /act /sandwich /= scale1r mul1mx dagger1 mulmx1.
  rewrite -[at_k _ _]/(@at_point F 1 unit_eqType tt (fun _ _ => tt) id (pull (inversion1 F) v)) mono_ker.
  by rewrite /pull /= inv1 mul_scalar_mx mxE mulN1r.
split=> [[m'']|oe].
  rewrite /sym_apply Em' => -[<-] H; have : ker (@at_point F 1 unit_eqType tt (fun _ _ => tt) id 1%:M) m' = ker (@at_point F 1 unit_eqType tt (fun _ _ => tt) id 1%:M) (mono e).
    rewrite /KeysProofs.ker; have r : rlin k1 (1 : F) (mono e) (zeros_like mat1 (mono e)) m'.
      by move=> k; rewrite H /= addr0 scale1r.
    have gz : good k1 tt (zeros_like mat1 (mono e)) by [].
    by rewrite (rlin_eval _ gm gz gm' r) scale1r {2}/ModelCore.meval big_nil addr0.
  rewrite V mono_ker mxE eqxx /= expr1n -signr_odd; case: (odd e) => //=.
  move=> /matrixP /(_ 0 0); rewrite !mxE eqxx mulr1 mulr1 => -[] /eqP.
  by rewrite expr1 eq_sym -subr_eq0 opprK -mulr2n pnatr_eq0.
exists m' => // k.
apply: (values_determine_model (pmul := fun _ _ => tt) (pc := id) gm' gm hf' (@mono_hopfree e)) => v.
by rewrite V mono_ker exprNn -signr_odd (negPf oe) mul1r.
Qed.

Example C35_inversion : exists2 result, continuum1 (inl 2%N) = Ok result &
  fspan k1 result (mono 2) /\ ~ fspan k1 result (mono 1).
Proof.
have wf : pge_wf (inversion1 F).
  split; first by rewrite /= unitmxE det_scalar expr1 unitrN1.
  by split; rewrite dagger1 mulmx1.
have [||result E] := @C35_accepts F 1 0 unit_eqType tt (fun _ _ => tt) id (fun=> erefl) erefl unit_eqType tt (fun N => @ker_rows F N) (fun fam => Ok fam) false [:: Discrete (inversion1 F)] (inl 2%N) 1 isT isT isT _ _ erefl.
- by move=> s [<-|//].
- by move=> g [[<-]|//].
exists result => //.
have H (m : kmodel) := @C35_continuum_hamiltonian F 1 0 unit_eqType tt id (fun=> erefl) erefl unit_eqType tt (fun N => @ker_rows F N) (@ker_rows_exact F) (fun fam => Ok fam) false (fun f => ltac:(discriminate f)) [:: Discrete (inversion1 F)] (inl 2%N) None 1 result isT E m.
split.
  apply/H => //; split.
  - move=> k; rewrite /= /pk_eq /=; case: ifP => [/eqP -> _|_]; last by rewrite eqxx.
    by split=> //; rewrite big_ord_recl big_ord0 /kpow /= ffunE.
  - by move=> k; rewrite /= /pk_eq /=; case: ifP; rewrite ?dagger1 ?dagger0.
  - by move=> s [<-|//]; apply/mono_symmetric.
case/H => // _ _ /(_ _ (or_introl erefl)); by move/mono_symmetric.
Qed.
End Inversion.
