(* C42, C43: bloch_family. *)
From mathcomp Require Import all_ssreflect all_algebra.
From mathcomp Require Import complex realalg.
From Coq Require Import Sorting.Permutation.
From Verif Require Import Prelude PySet GroupGen GroupGenProofs ModelCore ModelProofs PropModel PGE PGEProofs PGEGroup GroupSpec.
From Verif Require Import Keys KeysProofs PropApply LinSpan NullSpec Family FamilyProofs PropFamily FamilyOps PropConstrain.
From Verif Require Import FamilyTools PropFamilyTools Average StrictGroup Symmetrize PropSymmetrize.

Set Implicit Arguments.
Unset Strict Implicit.
Unset Printing Implicit Defensive.
Import GRing.Theory Num.Theory.
Local Open Scope ring_scope.
Local Open Scope complex_scope.

Lemma distinct_perm T (E : T -> T -> Prop) s t : (forall x y, E x y -> E y x) ->
  Permutation s t -> distinct E s -> distinct E t.
Proof.
move=> Es; elim=> //=.
- move=> x l l' p IH [nx /IH d]; split=> // y yl; apply: nx.
  exact: Permutation_in (Permutation_sym p) yl.
- move=> x y l [ny [nx d]]; split=> [z [<-|zl]|]; last split=> //.
  + by move=> /Es; apply: ny; left.
  + exact: nx.
  + by move=> z zl; apply: ny; right.
- by move=> s1 s2 s3 _ IH1 _ IH2 /IH1 /IH2.
Qed.

Lemma In_concat T (x : T) (ss : seq (seq T)) : List.In x (flatten ss) <-> exists2 s, List.In s ss & List.In x s.
Proof.
elim: ss => [|s ss IH] /=; first by split=> // -[].
rewrite In_cat IH; split=> [[h|[t h1 h2]]|[t [<-|h1] h2]].
- by exists s; [left|].
- by exists t; [right|].
- by left.
- by right; exists t.
Qed.

Section Spans.
Variables (F : rcfType) (n1 n2 : nat) (K : eqType) (kone : K) (Mom : eqType) (mom : Mom).
Local Notation C := F[i].
Local Notation V := [lmodType C of 'M[C]_(n1, n2)].
Local Notation model := (model K Mom V).
Local Notation good := (good kone mom).
Local Notation fspan := (@FamilyProofs.fspan F n1 n2 K kone Mom).
Variables (ns cs : forall N, seq 'rV[F]_N -> seq 'rV[F]_N).

Lemma combine_members fam (vecs : seq 'rV[F]_(size fam)) res : (forall m, List.In m fam -> good m) ->
  (0 < size fam)%N -> mapM (fun v => combine kone fam (rowseq v)) vecs = Ok res ->
  forall m, List.In m res -> good m /\ fspan fam m.
Proof.
move=> gf n0 E m mr; have [v _ e] := mapM_In E mr; have [m' [e' gm' cm']] := combine_row v n0 gf.
by move: e; rewrite e' => -[<-]; split=> //; exists (rowf v).
Qed.

(* every member of the result is a real combination of the input, for any ns and cs *)
Lemma constrain_span (Sy : Type) (sapply : Sy -> model -> res model) disc hasU syms fam res :
  (forall m, List.In m fam -> good m) -> constrain_family kone sapply disc hasU ns syms fam = Ok res ->
  forall m, List.In m res -> good m /\ fspan fam m.
Proof.
move=> gf; have mem m : List.In m fam -> good m /\ fspan fam m.
  by move=> mf; split; [apply: gf|apply: fspan_member].
case E0: fam gf mem => [|m0 fam'] gf mem; first by case=> <-.
rewrite /constrain_family; case: ifP => // _; case: ifP => // _.
case: (mapM _ syms) => [rot|] //=; case: (mapM _ _) => [cms|] //=; case: ifP => // _.
case: ifP => [_ [<-] //|_]; case E: (mapM _ _) => [hs|] //= [<-] m /In_filter [mh _].
exact: (combine_members gf _ E).
Qed.

Lemma duplicates_span fam res : (forall m, List.In m fam -> good m) ->
  remove_duplicates kone cs fam = Ok res -> forall m, List.In m res -> good m /\ fspan fam m.
Proof.
move=> gf; rewrite /remove_duplicates; case: ifP => [/nilP E [<-] m|n0]; first by rewrite E.
case: (family_to_vectors _ _ _) => [bv|] //= E.
by apply: combine_members E => //; rewrite lt0n; move/negbT: n0.
Qed.
End Spans.

Section Bloch.
Variables (F : rcfType) (d n : nat) (P : eqType) (pone : P) (pmul : P -> P -> P) (pc : P -> P).
Variables (K : eqType) (kone : K) (Mom : eqType) (mom : Mom) (Site : eqType).
Local Notation C := F[i].
Local Notation pge := (pge F d n).
Local Notation mat := [lmodType C of 'M[C]_n.+1].
Local Notation model := (model K Mom mat).
Local Notation ass := (assignment F d pone pmul pc).
Local Notation good := (good kone mom).
Local Notation fspan := (@FamilyProofs.fspan F n.+1 n.+1 K kone Mom).
Variables (ev : ass -> K -> C) (papply : pge -> model -> res model).
Local Notation value := (value kone ev).
Hypothesis AP : acts kone mom ev papply.
Variables (hopkey : 'rV[F]_d -> K) (kc : K -> K).
Hypothesis kcK : involutive kc.
Hypothesis ev_kc : forall a k, ev a (kc k) = conjc (ev a k).
Variables (ns cs : forall N, seq 'rV[F]_N -> seq 'rV[F]_N).

Definition hermitian_value (m : model) : Prop := forall a, dagger (value m a) = value m a.

Lemma hermitian_termP vec A : exists m, [/\ hermitian_term kone mom hopkey kc vec A = Ok m, good m,
  hermitian_value m & forall a, value m a = ev a (hopkey vec) *: A + dagger (ev a (hopkey vec) *: A)].
Proof.
rewrite /hermitian_term; set term := construct _ _ _ _ _.
have tE : term = Mk [:: (Sym (hopkey vec), A : mat)] [::] mom.
  by rewrite /term /construct /kept /=.
set tT := mmap _ term.
have sT : all_sym tT by rewrite /tT mmap_sym tE.
have wT : wf_model kone tT by rewrite /tT mmap_wf tE.
have [t [Et [st wt] _ vt]] := @C14_conj F K kone Mom kc kcK n.+1 n.+1 tT sT wT.
have mt : mmom t = mom.
  by move: Et; rewrite (mconj_props _ (inv_inj kcK)) // => -[<-].
rewrite Et [bind _ _]/=.
have E : mmom term = mmom t by rewrite mt tE.
have wterm : wf_model kone term by rewrite tE.
have [m [Em wm mm vm]] := C12_add wterm wt E.
have V a : value m a = ev a (hopkey vec) *: A + dagger (ev a (hopkey vec) *: A).
  rewrite /PropSymmetrize.value vm vt => [|k]; last exact: ev_kc.
  by rewrite /tT tE !eval1 daggerZ mxconjZ.
exists m; split=> //.
- split=> //.
  have := all_sym_madd' kone (_ : all_sym term) st; rewrite /madd' Em; apply.
  by rewrite tE.
- by move=> a; rewrite V daggerD daggerK addrC.
Qed.

(* closure of the two predicates under real combinations *)
Lemma span_value fam m : good m -> (forall x, List.In x fam -> good x) -> fspan fam m ->
  exists c : nat -> F, forall a, value m a = \sum_(j < size fam) (c j)%:C *: nth 0 [seq value x a | x <- fam] j.
Proof.
move=> gm gf [c H]; exists c => a.
exact: (comb_eval (ev a) gm gf H).
Qed.
Lemma span_hermitian fam m : good m -> (forall x, List.In x fam -> good x) -> fspan fam m ->
  (forall x, List.In x fam -> hermitian_value x) -> hermitian_value m.
Proof.
move=> gm gf /(span_value gm gf) [c V] H a; rewrite V /dagger raddf_sum mxconj_sum; apply: eq_bigr => j _.
rewrite -/(dagger _) daggerZ (nth_map m) // H; last exact: nth_In.
by congr (_ *: _); rewrite /= oppr0.
Qed.
Lemma span_moved fam m g : good m -> (forall x, List.In x fam -> good x) -> fspan fam m ->
  (forall x, List.In x fam -> moved g (value x) =1 value x) -> moved g (value m) =1 value m.
Proof.
move=> gm gf /(span_value gm gf) [c V] H a; rewrite /moved !V act_sum; apply: eq_bigr => j _.
by rewrite actZ !(nth_map m) //; congr (_ *: _); apply: H; apply: nth_In.
Qed.

Lemma act_hermitian (g : pge) (A : 'M[C]_n.+1) : dagger A = A -> dagger (act g A) = act g A.
Proof.
move=> HA; have HB : dagger ((if panti g then -1 else 1) *: cj (pconj g) A) = (if panti g then -1 else 1) *: cj (pconj g) A.
  have -> : dagger ((if panti g then -1 else 1) *: cj (pconj g) A)
     = (if panti g then -1 else 1) *: dagger (cj (pconj g) A).
    by case: (panti g); rewrite ?scaleN1r ?scale1r ?daggerN.
  by congr (_ *: _); case: (pconj g) => //=; rewrite dagger_mxconj -mxconj_dagger HA.
rewrite /act; move: HB; move: (_ *: _) => B HB; case: (pU g) => [U|] //=.
by rewrite !daggerM daggerK HB mulmxA.
Qed.
Lemma average_hermitian (G : seq pge) (f : ass -> 'M[C]_n.+1) a : (forall b : ass, dagger (f b) = f b) -> dagger (average G f a) = average G f a.
Proof.
move=> H; rewrite /average daggerZ /dagger raddf_sum mxconj_sum; congr (_ *: _).
  by rewrite invnC /= oppr0.
by apply: eq_bigr => g _; rewrite -/(dagger _) act_hermitian.
Qed.

(* C42: all terms before symmetrisation are Hermitian for all momenta *)
Theorem C42_terms_hermitian hops syms (norbs : seq (Site * nat)) onsites fam :
  all_terms kone mom hopkey kc ns hops syms norbs onsites = Ok fam ->
  forall m, List.In m fam -> good m /\ hermitian_value m.
Proof.
rewrite /all_terms; case: ifP => // _; case: ifP => // _; case E: (mapM _ _) => [fams|] //= [<-] m /In_concat [l lf ml].
have [[[a b] vec] _] := mapM_In E lf; rewrite /hopfamily.
case: (site_range _ _ a) => [ra|] //=; case: (site_range _ _ b) => [rb|] //=.
case Eh: (mapM (hermitian_term _ _ _ _ vec) _) => [hf|] //=.
have Hh x : List.In x hf -> good x /\ hermitian_value x.
  move=> /(mapM_In Eh) [A _ e]; have [x' [e' gx hx _]] := hermitian_termP vec A.
  by move: e; rewrite e' => -[<-].
case: ifP => [_ [El]|_ Ec]; first by apply: Hh; rewrite El.
have [gm sm] := constrain_span (fun x h => (Hh x h).1) Ec ml.
by split=> //; apply: span_hermitian gm (fun x h => (Hh x h).1) sm (fun x h => (Hh x h).2).
Qed.

Lemma around_id (m : model) : good m -> good (around id m) /\ value (around id m) =1 value m.
Proof.
move=> [w sy mo].
have E : [seq (kv.1, map_mx id kv.2 : mat) | kv <- mdata m] = mdata m.
  by rewrite -[RHS]map_id; apply: eq_map => -[k A] /=; congr (_, _); apply: map_mx_id.
rewrite /around E; split.
  split=> //.
    apply: subseq_uniq w; apply: map_subseq; exact: filter_subseq.
  by apply/allIn => kv /In_filter [h _]; move/allIn: sy => /(_ _ h).
move=> a; rewrite /PropSymmetrize.value /meval /= big_filter big_mkcond; apply: eq_bigr => kv _.
by case: eqP => [->|//]; rewrite scaler0.
Qed.

Definition spans (pretty : seq model -> res (seq model)) : Prop :=
  forall fam fam', (forall m, List.In m fam -> good m) -> pretty fam = Ok fam' ->
  forall m, List.In m fam' -> good m /\ fspan fam m.

Lemma strict_generators (l : seq pge) : (forall g, List.In g l -> strict_ok g) ->
  (forall g, List.In g (set_of (@pge_eq F d n) l) -> strict_ok g) /\
  forall g, List.In g l -> exists2 g', List.In g' (set_of (@pge_eq F d n) l) & phase_same g g'.
Proof.
move=> ok; split=> [g h|g]; first by apply: ok; apply: In_set_of h.
have [l' El] := strict_lift ok; rewrite -El (@tr_of _ _ val _ (@spge_eq F d n)) // => /In_map_iff [x xl ->].
have H : set_mem (@spge_eq F d n) (set_of (@spge_eq F d n) l') x.
  rewrite set_mem_of; [|exact: spge_sym|exact: spge_trans].
  by apply: set_mem_In => //; apply: spge_refl.
have [y yl /spge_eqP [b u]] := set_memP _ _ _ H.
by exists (val y); [apply/In_map_iff; exists y|split=> //; rewrite !spge_UE].
Qed.

(* C42: with symmetrize=True every member of the result is Hermitian for all momenta and
   invariant under all point group elements that were passed.  Missing: the rounding of
   the average and of the prettified result, see C42_rounding_refuted. *)
Theorem C42_symmetric_partial ord fuel pretty hops syms (norbs : seq (Site * nat)) onsites prettify res :
  (forall s, Permutation (ord s) s) -> spans pretty ->
  (0 < size (points syms))%N -> (forall g, List.In g (points syms) -> pge_wf g /\ pU g <> None) ->
  bloch_family kone mom hopkey kc papply ns cs ord fuel id pretty hops syms norbs onsites true prettify = Some (Ok res) ->
  forall m, List.In m res ->
    [/\ good m, hermitian_value m & forall g, List.In g (points syms) -> invariant kone ev papply g m].
Proof.
move=> op sp n0 wf; rewrite /bloch_family.
case Ef: (all_terms _ _ _ _ _ _ _ _ _) => [fam|] //=.
set pg := [seq set_strict g | g <- points syms].
case EG: (generate_group _ _ _ _ _) => [G|] //= [Er].
have ok g : List.In g pg -> strict_ok g.
  move=> /In_map_iff [h /wf [[u uU] nU] ->]; rewrite /strict_ok /= u /=.
  by case: (pU h) uU nU => // U uU _; apply/unitarybP.
have [ok' gen'] := strict_generators ok.
have o : enumeration ord.
  by move=> s x; split; apply: Permutation_in; [|apply: Permutation_sym].
have n1 : (0 < size (set_of (@pge_eq F d n) pg))%N.
  case: (points syms) n0 @pg {EG} ok ok' gen' {wf} => // g s _ pg ok ok' gen'.
  by have [|g' ] := gen' (set_strict g); [left|case: (set_of _ _)].
have [sG _ gG] := generate_strict_group o ok' n1 EG.
have sG' : symmetry_group (ord G).
  have I x : List.In x (ord G) <-> List.In x G by apply: o.
  case: sG => h1 h2 h3 h4 h5; split.
  - by move=> g /I; apply: h1.
  - by move=> g h /I gG' /I hG; apply: h2.
  - apply: distinct_perm h3; [exact: phase_same_sym|exact: Permutation_sym].
  - by move=> g h /I gG' /I hG; have [k /I kG e] := h4 g h gG' hG; exists k.
  - by have := Permutation_length (op G) => E; rewrite -[size _]E in h5.
have Ht := C42_terms_hermitian Ef.
move: Er; case Es: (symmetrized _ _ _ _ _ _ _) => [fam2|] //= Er.
have gs : forall m, List.In m fam2 -> [/\ good m, hermitian_value m &
    forall g, List.In g (ord G) -> moved g (value m) =1 value m].
  move: Es; rewrite /symmetrized; case E1: (mapM _ fam) => [terms|] //= Ed.
  pose Q m := [/\ good m, hermitian_value m & forall g, List.In g (ord G) -> moved g (value m) =1 value m].
  have HQ m : List.In m [seq t <- [seq around id t | t <- terms] | ~~ is_zero_model t] -> Q m.
    move=> /In_filter [/In_map_iff [t tt ->] _]; have [x xf ex] := mapM_In E1 tt.
    have [gx hx] := Ht x xf; have [s [es gs Vs]] := symmetrize_value AP sG' gx.
    move: ex; rewrite es => -[<-]; have [ga Va] := around_id gs; split=> //.
      by move=> a; rewrite Va Vs average_hermitian.
    move=> g gG'; move=> a; rewrite Va Vs -[RHS](average_invariant (value x) sG' gG' a).
    by apply: eq_moved => b; rewrite Va Vs.
  have gQ x : List.In x [seq t <- [seq around id t | t <- terms] | ~~ is_zero_model t] -> good x by move=> h; case: (HQ x h).
  move=> m mf; have [gm sm] := duplicates_span gQ Ed mf.
  split=> //; first by apply: (span_hermitian gm gQ sm) => x /HQ [].
  by move=> g gG'; apply: (span_moved gm gQ sm) => x /HQ [_ _]; apply.
have H m : List.In m res -> good m /\ fspan fam2 m.
  move: Er; case: prettify => [Ep|[<-]] mr; last by split; [case: (gs m mr)|apply: fspan_member].
  by apply: (sp _ _ _ Ep) mr => x /gs [].
move=> m /H [gm sm]; have gf2 x (h : List.In x fam2) : good x by case: (gs x h).
split=> //; first by apply: (span_hermitian gm gf2 sm) => x /gs [].
move=> g gp; have [wg _] := wf g gp; apply/(invariantP AP wg gm).
have gpg : List.In (set_strict g) pg by apply/In_map_iff; exists g.
have [g1 g1s e1] := gen' _ gpg; have [g2 g2G e2] := gG _ g1s.
have e12 : phase_same g g2.
  apply: phase_same_trans (phase_same_trans e1 e2); exact: pge_phase_same.
move=> a; rewrite (moved_phase _ _ e12); apply: (span_moved gm gf2 sm) => x /gs [_ _].
by apply; apply/o.
Qed.

(* the other strategy, symmetrize=False, for an exact null space *)
Theorem C42_constrained ord fuel rnd pretty hops syms (norbs : seq (Site * nat)) onsites prettify res :
  exact_nullspace ns -> spans pretty ->
  (forall g, List.In g (points syms) -> lin_op kone mom (papply g)) ->
  bloch_family kone mom hopkey kc papply ns cs ord fuel rnd pretty hops syms norbs onsites false prettify = Some (Ok res) ->
  forall m, List.In m res -> [/\ good m, hermitian_value m &
    forall g, List.In g (points syms) -> symmetric kone papply xpredT g m].
Proof.
move=> ex sp lin; rewrite /bloch_family.
case Ef: (all_terms _ _ _ _ _ _ _ _ _) => [fam|] //= [].
have Ht := C42_terms_hermitian Ef.
case Ed: (remove_duplicates _ _ _) => [fam1|] //=; case Ec: (constrain_family _ _ _ _ _ _ _) => [fam2|] //= Er.
have D := duplicates_span (fun x h => (Ht x h).1) Ed.
have D' x : List.In x fam1 -> hermitian_value x.
  move=> h; have [gx sx] := D x h.
  exact: span_hermitian gx (fun x h => (Ht x h).1) sx (fun x h => (Ht x h).2).
have gf1 x (h : List.In x fam1) : good x by case: (D x h).
have [gr H] := C32_constrain_family ex lin gf1 Ec.
have S m : List.In m res -> good m /\ fspan fam2 m.
  move: Er; case: prettify => [Ep|[<-]] mr; last by split; [apply: gr|apply: fspan_member].
  exact: (sp _ _ gr Ep).
move=> m /S [gm sm]; have [sm' sym] := (H m gm).1 sm; split=> //.
exact: span_hermitian gm gf1 sm' D'.
Qed.

(* symmetrize=True, the default, needs at least one PointGroupElement *)
Theorem C42_no_point_group_refuted ord fuel rnd pretty hops syms (norbs : seq (Site * nat)) onsites prettify m fam :
  (forall s, Permutation (ord s) s) -> (0 < fuel)%N -> points syms = [::] ->
  all_terms kone mom hopkey kc ns hops syms norbs onsites = Ok (m :: fam) ->
  bloch_family kone mom hopkey kc papply ns cs ord fuel rnd pretty hops syms norbs onsites true prettify
    = Some (Err ZeroDivisionError).
Proof.
move=> op; case: fuel => // fuel _ E0 Ef; rewrite /bloch_family Ef E0.
have o0 : ord [::] = [::] by apply: Permutation_nil; apply: Permutation_sym.
by rewrite /= /generate_group /= o0 /= /symmetrized /= o0.
Qed.
End Bloch.

Section Instances.
Variables (F : rcfType) (d n : nat) (P : eqType) (pone : P) (pmul : P -> P -> P) (pc : P -> P).
Hypothesis pcK : involutive pc.
Variables (Mom : eqType) (mom : Mom) (Site : eqType).
Local Notation C := F[i].
Local Notation pge := (pge F d n).
Local Notation key := (key F d P).
Local Notation bkey := (bkey F d P).
Local Notation mat := [lmodType C of 'M[C]_n.+1].
Local Notation kmodel := (model [eqType of key] Mom mat).
Local Notation bmodel := (model [eqType of bkey] Mom mat).
Local Notation ass := (assignment F d pone pmul pc).
Let ko : [eqType of key] := kone F d pone.
Let bo : [eqType of bkey] := bone F d pone.
Variables (ns cs : forall N, seq 'rV[F]_N -> seq 'rV[F]_N).

(* make_basis_pretty without rounding, for any rref *)
Lemma pretty_spans (K : eqType) (k1 : K) (rref : forall m n, 'M[F]_(m, n) -> res 'M[F]_m) :
  @spans F n K k1 Mom mom (make_basis_pretty k1 rref id).
Proof.
move=> fam fam' gf; rewrite /make_basis_pretty; case: ifP => [/nilP E [<-] m|n0]; first by rewrite E.
case: (family_to_vectors _ _ _) => [bv|] //=; case: (rref _ _ _) => [S'|] //=.
case E: (combine_all _ _) => [terms|] //= [<-] m /In_filter [mt _].
by apply: combine_members E m mt => //; rewrite lt0n; move/negbT: n0.
Qed.

(* bloch_family(..., bloch_model=True) and bloch_family(..., bloch_model=False) *)
Definition bloch_hop (v : 'rV[F]_d) : [eqType of bkey] := (v, pone).
Definition model_hop (v : 'rV[F]_d) : [eqType of key] := (pw0 d, v, pone).

Theorem C42_bloch_models_partial ord fuel pretty hops syms (norbs : seq (Site * nat)) onsites prettify (res : seq bmodel) :
  (forall s, Permutation (ord s) s) -> spans bo mom pretty ->
  (0 < size (points syms))%N -> (forall g : pge, List.In g (points syms) -> pge_wf g /\ pU g <> None) ->
  bloch_family bo mom bloch_hop (bconj pc : bkey -> bkey) (fun g m => pge_apply_bloch pone pc g m) ns cs
    ord fuel id pretty hops syms norbs onsites true prettify = Some (Ok res) ->
  forall m, List.In m res ->
    (forall a : ass, dagger (ber a m) = ber a m) /\
    forall g, List.In g (points syms) ->
      exists2 m', pge_apply_bloch pone pc g m = Ok m' & forall a : ass, ber a m' = ber a m.
Proof.
move=> op sp n0 wf E m mr.
have [_ H I] := @C42_symmetric_partial F d n P pone pmul pc [eqType of bkey] bo Mom mom Site (fun a k => bev a k)
  (fun g m => pge_apply_bloch pone pc g m) (@acts_bloch F d n P pone pmul pc pcK Mom mom) bloch_hop (bconj pc : bkey -> bkey)
  (bconjK pcK) (fun a k => bev_conj a k) ns cs ord fuel pretty hops syms norbs onsites prettify res op sp n0 wf E m mr.
by split.
Qed.

Theorem C42_models_partial ord fuel pretty hops syms (norbs : seq (Site * nat)) onsites prettify (res : seq kmodel) :
  (forall s, Permutation (ord s) s) -> spans ko mom pretty ->
  (0 < size (points syms))%N -> (forall g : pge, List.In g (points syms) -> pge_wf g /\ pU g <> None) ->
  bloch_family ko mom model_hop (kconj pc : key -> key) (fun g m => pge_apply pone pc g m) ns cs
    ord fuel id pretty hops syms norbs onsites true prettify = Some (Ok res) ->
  forall m, List.In m res ->
    (forall a : ass, dagger (ker a m) = ker a m) /\
    forall g, List.In g (points syms) ->
      exists2 m', pge_apply pone pc g m = Ok m' & forall a : ass, ker a m' = ker a m.
Proof.
move=> op sp n0 wf E m mr.
have [_ H I] := @C42_symmetric_partial F d n P pone pmul pc [eqType of key] ko Mom mom Site (fun a k => kev a k)
  (fun g m => pge_apply pone pc g m) (@acts_model F d n P pone pmul pc pcK Mom mom) model_hop (kconj pc : key -> key)
  (kconjK pcK) (fun a k => kev_conj a k) ns cs ord fuel pretty hops syms norbs onsites prettify res op sp n0 wf E m mr.
by split.
Qed.
End Instances.

(* rounding the average destroys the invariance: U = (3 4; 4 -3) / 5 *)
Section Rounding.
Variables (F : rcfType) (d : nat).
Local Notation C := F[i].
Local Notation P := unit_eqType.
Local Notation bk := [eqType of bkey F d P].
Local Notation mat := [lmodType C of 'M[C]_2].
Local Notation ass := (assignment F d (tt : P) (fun _ _ => tt) id).
Let b1 : bk := bone F d (tt : P).
Definition constant (A : 'M[C]_2) : model bk unit_eqType mat := Mk [:: (Sym b1, A : mat)] [::] tt.
Definition onsite (U : 'M[C]_2) : pge F d 1 := Pge 1%:M false false (Some U) false.
Lemma apply_onsite (U A : 'M[C]_2) : pge_apply_bloch (tt : P) id (onsite U) (constant A) = Ok (constant (U *m A *m dagger U)).
Proof.
by rewrite /pge_apply_bloch /= /bloch_rotate /= /dict_of /= /brot /= mul0mx /conjugate_by /mmap /=.
Qed.

Lemma one_mul : 1 = (1 * 1 : C). Proof. by rewrite mulr1. Qed.
Lemma one_conj : conjc (1 : C) = 1. Proof. by rewrite rmorph1. Qed.
Definition plain_ass : ass :=
  @Assignment F d P tt (fun _ _ => tt) id 0 (fun=> 1) (fun=> 1) erefl (fun _ _ => one_mul)
    (fun _ => one_conj) erefl (fun _ _ => one_mul) (fun _ => esym one_conj).
Lemma ber_constant (a : ass) A : ber a (constant A) = A.
Proof. by rewrite /ber /constant eval1 /b1 (_ : bev a _ = 1) ?scale1r // /bev /= mul0mx mxE as_cis0 as_par1 mulr1. Qed.

Let x3 : C := 3%:R / 5%:R.
Let x4 : C := 4%:R / 5%:R.
Definition refl34 : 'M[C]_2 := \matrix_(i, j) if i != j then x4 else if i == 0 then x3 else - x3.
Lemma conjr (x y : nat) : conjc (x%:R / y%:R : C) = x%:R / y%:R.
Proof. by rewrite rmorphM fmorphV !rmorph_nat. Qed.
Lemma refl34_dagger : dagger refl34 = refl34.
Proof.
apply/matrixP => i j; rewrite !mxE eq_sym; case: eqP => [->|_]; last exact: conjr.
rewrite [~~ true]/=; case: ifP => _ //; first exact: conjr.
by rewrite rmorphN; congr (- _); exact: conjr.
Qed.
Lemma x3x4 : x3 * x3 + x4 * x4 = 1.
Proof.
rewrite /x3 /x4 !mulf_div -mulrDl -!natrM -natrD divff //.
by rewrite pnatr_eq0.
Qed.
Lemma refl34_sq : refl34 *m refl34 = 1%:M.
Proof.
apply/matrixP => i j; rewrite !mxE big_ord_recl big_ord1 !mxE.
case: i => [[|[|//]] ?]; case: j => [[|[|//]] ?] /=; rewrite /= ?mulrNN ?mulrN ?mulNr ?x3x4 ?[x4 * x4 + _]addrC ?x3x4 //.
- by rewrite mulrC subrr.
- by rewrite mulrC subrr.
Qed.
Lemma refl34_unitary : unitarymx refl34.
Proof. by rewrite /unitarymx refl34_dagger refl34_sq. Qed.

Theorem C42_rounding_refuted (rnd : C -> C) (t : F) : t != 0 ->
  (* rounding to a multiple of t *)
  rnd (t%:C * x3) = t%:C -> rnd (t%:C * x4) = t%:C -> rnd (- (t%:C * x3)) = - t%:C ->
  exists (G : seq (pge F d 1)) (m s : model bk unit_eqType mat),
    [/\ symmetry_group G, good b1 tt m,
        symmetrize_monomial b1 (fun g m => pge_apply_bloch (tt : P) id g m) m G = Ok s &
        exists g s', [/\ List.In g G, pge_apply_bloch (tt : P) id g (around rnd s) = Ok s' &
          exists a : ass, ber a s' <> ber a (around rnd s)]].
Proof.
move=> t0 r3 r4 rN.
pose A := t%:C *: refl34; pose G := [:: onsite 1%:M; onsite refl34].
have UAU : refl34 *m A *m dagger refl34 = A.
  by rewrite refl34_dagger -scalemxAr -scalemxAl refl34_sq mul1mx.
exists G, (constant A), (constant A); split.
- split.
  + by move=> g [<-|[<-|//]]; split; rewrite ?unitmx1 //; [apply: unitary1|apply: refl34_unitary].
  + by move=> g h [<-|[<-|//]] [<-|[<-|//]].
  + split; last by [].
    move=> g [<-|//] [_ [c _ E]]; have := congr1 (fun M : 'M[C]_2 => M 0 1) E.
    rewrite !mxE /= mulr0 => /eqP; rewrite mulf_eq0 invr_eq0 !pnatr_eq0.
    by [].
  + have same (U V W : 'M[C]_2) : U *m V = W -> phase_same (pge_mul (onsite U) (onsite V)) (onsite W).
      by move=> <-; apply: pge_phase_same; split; rewrite //= mul1mx.
    move=> g h [<-|[<-|//]] [<-|[<-|//]].
    * by exists (onsite 1%:M); [left|apply: same; rewrite mul1mx].
    * by exists (onsite refl34); [right; left|apply: same; rewrite mul1mx].
    * by exists (onsite refl34); [right; left|apply: same; rewrite mulmx1].
    * by exists (onsite 1%:M); [left|apply: same; rewrite refl34_sq].
  + by [].
- by split.
- rewrite /symmetrize_monomial [mapM _ _]/(do y <- pge_apply_bloch (tt : P) id (onsite 1%:M) (constant A); do ys <- mapM (fun g => pge_apply_bloch (tt : P) id g (constant A)) [:: onsite refl34]; Ok (y :: ys)).
  rewrite apply_onsite mapM1 apply_onsite UAU dagger1 mul1mx mulmx1 /= /madd /= /add_data /= /pk_eq /= eqxx /=.
  rewrite /mscale /constant /=; congr (Ok (Mk [:: (_, _)] _ _)).
  by rewrite eqxx -mulr2n -scaler_nat scalerA mulVf ?scale1r // pnatr_eq0.
pose B : 'M[C]_2 := \matrix_(i, j) if (i == 1) && (j == 1) then - t%:C else t%:C.
have tC : t%:C != 0 :> C by rewrite -(rmorph0 [rmorphism of real_complex F]) (inj_eq (fmorph_inj _)).
have rB : map_mx rnd A = B.
  apply/matrixP => i j; rewrite !mxE.
  by case: i => [[|[|//]] ?]; case: j => [[|[|//]] ?] /=; rewrite ?r4 ?r3 ?mulrN ?rN.
have B0 : B != 0.
  by apply/eqP => /matrixP /(_ 0 0); rewrite !mxE /=; apply/eqP.
have aE : around rnd (constant A) = constant B by rewrite /around /= rB B0.
exists (onsite refl34), (constant (refl34 *m B *m dagger refl34)); split; first by right; left.
  by rewrite aE apply_onsite.
exists plain_ass; rewrite aE !ber_constant refl34_dagger => /(congr1 (fun M => M *m refl34)).
rewrite -!mulmxA refl34_sq mulmx1 => /matrixP /(_ 0 1); rewrite !mxE !big_ord_recl !big_ord0 !mxE /=.
rewrite !addr0 mulrN [_ * x4]mulrC [t%:C * - x3]mulrN [_ * x3]mulrC.
move/eqP; rewrite -[X in _ == X]opprB -addr_eq0 -mulr2n mulrn_eq0 /= -mulrBl mulf_eq0 (negPf tC) orbF.
by rewrite /x3 /x4 -mulrBl mulf_eq0 invr_eq0 !pnatr_eq0 orbF subr_eq0 eqr_nat.
Qed.
End Rounding.

(* C43: the flag _strict_eq of the caller's elements is set *)
Theorem C43_strict_flag_refuted (F : rcfType) (d : nat) :
  exists (symmetries : seq (bsym F d 1)) (g h : pge F d 1),
    [/\ symmetries = [:: BPoint g; BPoint h], pge_wf g /\ pge_wf h, pge_eq g h &
      exists g' h', strictify symmetries = [:: BPoint g'; BPoint h'] /\ ~~ pge_eq g' h'].
Proof.
pose g := onsite d (1%:M : 'M[F[i]]_2); pose h := onsite d (refl34 F).
exists [:: BPoint g; BPoint h], g, h; split=> //.
- by split; split; rewrite ?unitmx1 //; [apply: unitary1|apply: refl34_unitary].
- by rewrite /pge_eq /= !eqxx.
exists (set_strict g), (set_strict h); split=> //; apply/negP.
move/(@pge_eq_strict _ _ _ (set_strict g) (set_strict h) 1%:M (refl34 F) erefl erefl (unitary1 _ _) isT) => [_ [c _]].
move/matrixP/(_ 0 1); rewrite !mxE /= mulr0 => /eqP; rewrite mulf_eq0 invr_eq0 !pnatr_eq0.
by [].
Qed.

(* one site with one orbital and the hopping exp(ik): the terms are cos and sin *)
Section Example.
Variable F : rcfType.
Local Notation mat1 := [lmodType F[i] of 'M[F[i]]_1].
Local Notation bk := [eqType of bkey F 1 unit_eqType].
Let b1 : bk := bone F 1 (tt : unit_eqType).
Example C42_terms (v := const_mx 1 : 'rV[F]_1) ns :
  all_terms (n := 0) b1 tt (bloch_hop (tt : unit_eqType)) (bconj id : bkey F 1 unit_eqType -> bk) ns
    [:: (tt : unit_eqType, tt : unit_eqType, v)] [::] [:: (tt : unit_eqType, 1%N)] false =
  Ok [:: Mk [:: (Sym ((v, tt) : bk), 1%:M : mat1); (Sym ((- v, tt) : bk), 1%:M : mat1)] [::] tt;
         Mk [:: (Sym ((v, tt) : bk), 'i%:M : mat1); (Sym ((- v, tt) : bk), (- 'i)%:M : mat1)] [::] tt].
Proof.
have nv := neq1N F.
have E z : block 0 (0%N, 1%N) (0%N, 1%N) z 0 = z%:M :> 'M[F[i]]_1.
  by apply/matrixP => i j; rewrite !mxE (ord1 i) (ord1 j) eqxx.
have H z : hermitian_term (n := 0) b1 tt (bloch_hop (tt : unit_eqType)) (bconj id : bkey F 1 unit_eqType -> bk) v z%:M =
   Ok (Mk [:: (Sym ((v, tt) : bk), z%:M : mat1); (Sym ((- v, tt) : bk), (conjc z)%:M : mat1)] [::] tt).
  rewrite /hermitian_term /mconj /= /dict_of /= /madd /= /add_data /= /pk_eq /= !xpair_eqE /= !andbT.
  rewrite [- v == v]eq_sym (negPf nv) /=; congr (Ok (Mk [:: _; (_, _)] _ _)).
  by rewrite tr_scalar_mx /mxconj map_scalar_mx.
pose h (z : F[i]) := hermitian_term (n := 0) b1 tt (bloch_hop (tt : unit_eqType)) (bconj id : bkey F 1 unit_eqType -> bk) v z%:M.
transitivity (do x <- h 1; do y <- h 'i; Ok [:: x; y]); first by rewrite /all_terms /= !E.
rewrite /h !H /=; congr (Ok [:: Mk [:: _; (_, _%:M)] _ _; Mk [:: _; (_, _%:M)] _ _]).
  by apply/eqP; rewrite eq_complex /= oppr0 !eqxx.
by apply/eqP; rewrite eq_complex /= oppr0 !eqxx.
Qed.
End Example.

Print Assumptions C42_terms_hermitian.
Print Assumptions C42_bloch_models_partial.
Print Assumptions C42_models_partial.
Print Assumptions C42_constrained.
Print Assumptions C42_no_point_group_refuted.
Print Assumptions C42_rounding_refuted.
Print Assumptions C43_strict_flag_refuted.
