(* C101, C102: the driver symmetries for Models and BlochModels *)
From mathcomp Require Import all_ssreflect all_algebra.
From mathcomp Require Import complex.
From Verif Require Import Prelude PySet GroupGen GroupGenProofs GroupSpec PropGroups ModelCore ModelProofs PropModel PGE PGEProofs PGEGroup Keys KeysProofs PropApply LinSpan NullSpec Star Nullspace Linalg PropLinalg Family FamilyProofs FamilyOps PolyExt ActionProofs.
From Verif Require Import Tolerance PropTol Lie PropLie SymBlocks PropBlocks SimultDiag PropSimult PropConserved StarAlg Sun PropSun PropReduce PropFind Symmetries PropSymmetries ContSym PropContSym Discrete PropDiscrete.

Set Implicit Arguments.
Unset Strict Implicit.
Unset Printing Implicit Defensive.
Import Order.TTheory GRing.Theory Num.Theory.
Local Open Scope ring_scope.

Section Driver.
Variables (F : rcfType) (tol atol ntol dtol : F).
Local Notation C := F[i].
Local Notation rc := [rmorphism of real_complex F].
Local Notation idf := [rmorphism of idfun].
Variables (eigh : forall n, 'M[C]_n -> seq F * 'M[C]_n) (svd : forall n, 'M[C]_n -> 'M[C]_n * 'M[C]_n).
Variables (nsR : forall N, seq 'rV[F]_N -> seq 'rV[F]_N) (nsC : forall N, seq 'rV[C]_N -> seq 'rV[C]_N).
Variables (lsq : forall m N, 'M[C]_(N * N, m) -> 'cV[C]_(N * N) -> 'cV[C]_m) (nsvd : forall m, 'M[C]_m -> seq F * 'M[C]_m).
Variables (eig : forall n, 'M[C]_n -> seq C * 'M[C]_n) (qr : forall n, 'M[C]_n -> 'M[C]_n).
Variables (components : forall n, rel 'I_n -> seq nat) (argsort : seq nat -> seq nat).
Hypotheses (t0 : 0 <= tol) (a0 : 0 <= atol) (n0 : 0 <= ntol) (d0 : 0 < dtol).
Hypotheses (eighP : eigh_contract eigh) (svdP : svd_contract svd) (nsP : exact_nullspace nsR) (nsCP : exact_nullspace nsC).
Hypotheses (lsqP : forall m N, lstsq_contract (@lsq m N)).
Hypotheses (nsvdP : forall m (g : 'M[C]_m), exists u, is_svd (complex_star F) g u (nsvd g).1 (nsvd g).2).
Hypotheses (eigP : eig_contract eig) (qrP : qr_contract qr) (compP : components_contract components) (argP : argsort_contract argsort).
Local Notation reduce := (reduce_hamiltonian tol atol eigh svd nsR nsC lsq nsvd ntol dtol eig qr components argsort).
Local Notation hyp := (hyp ntol dtol nsR nsC lsq nsvd).

Variables (d n : nat) (Mom : eqType) (mom : Mom).
Local Notation mat := [lmodType C of 'M[C]_n.+1].
Local Notation pge := (pge F d n).
Local Notation npge := (npge F d n).
Variables (ord : seq npge -> seq npge) (pick : npge -> seq npge -> npge) (sort : seq npge -> seq npge) (fuel gf : nat).
Hypotheses (ordP : enumeration ord) (pickP : forall c s, List.In c s -> List.In (pick c s) s).

(* the candidates which are tested: those given, without unitaries and in a finite group L, or the four on-site ones *)
Definition tested (given : option (seq npge)) (candidates : seq npge) : Prop :=
  match given with
  | Some c => [/\ candidates = c, c <> [::], forall x : npge, List.In x c -> pU (val x) = None, (size c <= fuel)%N &
      exists L, [/\ included (@npge_eq F d n) c L, GroupSpec.closed (@npge_eq F d n) (@npge_mul F d n) L & (size L < gf)%N]]
  | None => [/\ default_candidates ord gf = Some candidates, (4 <= fuel)%N & (4 < gf)%N]
  end.
Lemma tested_default : (4 <= fuel)%N -> (4 < gf)%N -> exists2 c, tested None c &
  forall x : npge, inset (@npge_eq F d n) c x <-> pR (val x) = 1%:M.
Proof. by move=> l1 l2; have [G [E _ _ _ h]] := default_candidatesP ordP l2; exists G. Qed.
Lemma testedP given c : tested given c -> [/\ c <> [::], forall x : npge, List.In x c -> pU (val x) = None, (size c <= fuel)%N,
    match given with Some c => Some c | None => default_candidates ord gf end = Some c &
    exists L, [/\ included (@npge_eq F d n) c L, GroupSpec.closed (@npge_eq F d n) (@npge_mul F d n) L & (size L < gf)%N]].
Proof.
case: given => [g [-> h1 h2 h3 h4]|[E l1 l2]] //.
have [G [E' h1 h2 h3 h4]] := default_candidatesP ordP l2; move: E'; rewrite E => -[e]; rewrite e; split=> //.
- by move=> z; rewrite z in h1.
- by rewrite h1.
by exists G; rewrite h1; split.
Qed.

Section Abstract.
Variables (K : eqType) (k1 : K).
Local Notation model := (model K Mom mat).
Local Notation coef m k := (dget k1 (mdata m) (Sym k)).
Local Notation good := (FamilyProofs.good k1 mom).
Variables (kc : K -> K) (T : 'M[F]_d -> (K -> C) -> K -> C).
Hypothesis kcK : involutive kc.
Hypothesis T_ext : forall R ev ev', ev =1 ev' -> T R ev =1 T R ev'.
Hypothesis TM : forall A B ev, T A (T B ev) =1 T (A *m B) ev.
Hypothesis T1 : forall ev, T 1%:M ev =1 ev.
Hypothesis T_bar : forall R ev, T R (kbar kc ev) =1 kbar kc (T R ev).
Variable apply : pge -> model -> res model.
Hypothesis applyP : forall g m, pR g \in unitmx -> good m ->
  exists m', [/\ apply g m = Ok m', good m' & forall ev, meval k1 ev m' = PropApply.act g (meval k1 (phi kc T g ev) m)].
Variable m : model.
Hypotheses (gm : good m) (herm : forall k, coef m (kc k) = dagger (coef m k : 'M[C]_n.+1)) (notzero : exists k, coef m k != 0).
Local Notation H := [seq kv.2 | kv <- mdata m].
Variable Ps : seq (stack F n.+1).
Hypotheses (hy : hyp H) (redE : reduce H = Ok Ps).

Lemma H_ne : H <> [::].
Proof. by case: notzero => k /coef_key; case: (mdata m). Qed.
Lemma H_coef h : List.In h H <-> exists2 k, k \in dkeys k1 (mdata m) & h = coef m k.
Proof.
case: gm => w _ _; split=> [/In_map_iff[kv kvi ->]|[k /mapP[kv kvi ->] ->]].
  by exists (den k1 kv.1); [apply: map_f; apply/In_mem|rewrite coef_den].
by apply/In_map_iff; exists kv; [apply/In_mem|rewrite coef_den //; apply/In_mem].
Qed.
Lemma H_reduced : reduced H Ps.
Proof.
apply: (C98_sound t0 a0 n0 d0 eighP svdP nsP lsqP nsvdP eigP qrP compP argP (ltn0Sn n) H_ne _ hy redE) => h /H_coef[k kin ->].
rewrite -[dag _]herm; have [kin'|kn] := boolP (kc k \in dkeys k1 (mdata m)).
  by apply: span_mem; apply/H_coef; exists (kc k).
by rewrite (dget_notin (k := Sym (kc k))) //; apply: span0.
Qed.
Lemma commutesE X : commutes H X <-> forall k, X *m (coef m k : 'M[C]_n.+1) = coef m k *m X.
Proof.
split=> cX h; last by case/H_coef=> k _ ->.
have [kin|kn] := boolP (h \in dkeys k1 (mdata m)); first by apply: cX; apply/H_coef; exists h.
by rewrite (dget_notin (k := Sym h)) // mulmx0 mul0mx.
Qed.
Lemma find_ok g : pR g \in unitmx -> pU g = None -> exists2 r, find_model k1 eigh nsR nsC apply Ps m g = Ok r &
  if r is Some U then unitarymx U /\ preserves k1 apply m (set_U g U) else ~ symmetric k1 apply m g.
Proof. by move=> ug Ug; apply: (find_modelP kcK T_ext TM T1 T_bar applyP gm nsR eighP nsCP H_reduced herm notzero). Qed.
Lemma conserved_ok : is_basis rc (onsite_symmetries Ps)
  (fun X => [/\ dagger X = X, \tr X = 0 & forall k, X *m (coef m k : 'M[C]_n.+1) = coef m k *m X]).
Proof.
apply: eq_basis (onsiteP H_reduced) => X; split=> -[h1 h2 h3]; split=> //; first exact/commutesE.
by apply/commutesE.
Qed.
Lemma driver contin given candidates (cr gens : bool) rots : tested given candidates -> (cr -> contin Ps = Ok rots) ->
  exists symset genset, found_group k1 apply m candidates symset genset /\
    symmetries k1 eigh nsR nsC apply (fun H : seq 'M[C]_n.+1 => reduce H) contin ord pick sort fuel gf m given cr gens =
    Some (Ok (sort (if gens then genset else symset), [seq (0, L) | L <- onsite_symmetries Ps] ++ (if cr then rots else [::]))).
Proof.
move=> /testedP[ne cU l1 E [L [cL Lcl l2]]] hc; have [ss [gs [ed fg]]] := discreteP kcK T_ext TM T1 T_bar applyP gm nsR eighP nsCP H_reduced herm notzero ordP pickP ne cU cL Lcl l1 l2.
exists ss, gs; split=> //; rewrite /symmetries redE /= E.
have -> : (if cr then contin Ps else Ok [::]) = Ok (if cr then rots else [::]) by case: cr hc => // ->.
by case: (candidates) ne ed => //= c cs _ ->.
Qed.
End Abstract.

(* P: products of the symbols other than momenta *)
Variables (P : eqType) (pone : P) (pc : P -> P).
Hypothesis pcK : involutive pc.
Local Notation key := [eqType of Keys.key F d P].
Local Notation bkey := [eqType of Keys.bkey F d P].
Local Notation ko := (kone F d pone : key).
Local Notation bo := (bone F d pone : bkey).

Section Model.
Local Notation kap := (@pge_apply F d P pone pc Mom n).
Variable m : model key Mom mat.
Local Notation coef k := (dget ko (mdata m) (Sym k) : 'M[C]_n.+1).
Hypotheses (gm : FamilyProofs.good ko mom m) (herm : forall k : key, coef (kconj pc k) = dagger (coef k)) (notzero : exists k, coef k != 0).
Local Notation H := [seq kv.2 | kv <- mdata m].
Variable Ps : seq (stack F n.+1).
Hypotheses (hy : hyp H) (redE : reduce H = Ok Ps).
Local Notation contin := (fun Ps => continuous_symmetries pone nsR (@pd F n Ps) (@pP F n Ps) m).
Local Notation sym := (symmetries ko eigh nsR nsC kap (fun H : seq 'M[C]_n.+1 => reduce H) contin ord pick sort fuel gf m).
Let kapplyP (g : pge) (m' : model key Mom mat) (_ : pR g \in unitmx) := @kapply_eval F d n P pone pc pcK Mom mom g m'.
Let kcK : involutive (kconj pc : key -> key). Proof. exact: (kconjK pcK). Qed.

(* _find_unitary decides whether the element is a symmetry *)
Theorem C101_find (g : pge) : pR g \in unitmx -> pU g = None ->
  exists2 r, find_model ko eigh nsR nsC kap Ps m g = Ok r &
  if r is Some U then unitarymx U /\ preserves ko kap m (set_U g U) else ~ symmetric ko kap m g.
Proof. by apply: (find_ok kcK (@krotT_ext _ _ _) (@krotTM _ _ _) (@krotT1 _ _ _) (krotT_bar pc) kapplyP gm herm notzero hy redE). Qed.

(* symmetries without continuous rotations *)
Theorem C101_symmetries given candidates gens : tested given candidates ->
  exists symset genset, [/\ sym given false gens = Some (Ok (sort (if gens then genset else symset), [seq (0, L) | L <- onsite_symmetries Ps])),
    found_group ko kap m candidates symset genset &
    is_basis rc (onsite_symmetries Ps) (fun X => [/\ dagger X = X, \tr X = 0 & forall k, X *m coef k = coef k *m X])].
Proof.
move=> tc; have [|ss [gs [fg e]]] := driver kcK (@krotT_ext _ _ _) (@krotTM _ _ _) (@krotT1 _ _ _) (krotT_bar pc) kapplyP gm herm notzero hy redE (contin := contin) (cr := false) (rots := [::]) gens tc; first by [].
exists ss, gs; split=> //; first by rewrite e cats0.
exact: (conserved_ok gm herm notzero hy redE).
Qed.

(* an empty list of candidates *)
Theorem C101_no_candidates gens : sym (Some [::]) false gens = Some (Ok ([::], [seq (0, L) | L <- onsite_symmetries Ps])).
Proof. by rewrite /symmetries redE /= cats0. Qed.

(* with continuous rotations, if no block is one-dimensional (C95): the generators which are added are a basis of the
   symmetries (R, L) with L block diagonal and traceless in each block; up to conserved quantities these are all *)
Theorem C101_rotations given candidates gens : tested given candidates -> (1 < d)%N -> (forall i, (0 < @pn F n Ps i)%N) ->
  exists symset genset rots, [/\ sym given true gens = Some (Ok (sort (if gens then genset else symset), [seq (0, L) | L <- onsite_symmetries Ps] ++ rots)),
    found_group ko kap m candidates symset genset,
    is_basis rc (rots : seq [lmodType C of ('M[C]_d * 'M[C]_n.+1)%type])
      (fun g : [lmodType C of ('M[C]_d * 'M[C]_n.+1)%type] => (rotation_generator g.1 /\ block_generator (@pd F n Ps) (@pP F n Ps) g.2) /\ annihilates pone m g) &
    forall R L, rotation_generator R -> dagger L = L -> annihilates pone m (R, L) ->
      exists2 L', span rc (rots : seq [lmodType C of ('M[C]_d * 'M[C]_n.+1)%type]) ((R, L') : [lmodType C of ('M[C]_d * 'M[C]_n.+1)%type]) & forall x, coef x *m (L - L') = (L - L') *m coef x].
Proof.
move=> tc d2 np; have R := H_reduced gm herm notzero hy redE.
have ne : ~~ nilp (mdata m) by case: notzero => k /coef_key; case: (mdata m).
have bd x : block_diagonal (@pd F n Ps) (@pP F n Ps) (coef x).
  have [kin|kn] := boolP (x \in dkeys ko (mdata m)); first by apply: (parr_block R); apply/(H_coef gm); exists x.
  rewrite (dget_notin (k := Sym x)) //; exists (fun=> 0); rewrite big1 // => i _; rewrite big1 // => a _; by rewrite mulmx0 mul0mx.
have [rots e B] := C94_basis gm d2 (parr_orthonormal R) (parr_complete R) (pd0 R) bd nsP np ne.
have [//|ss [gs [fg E]]] := driver kcK (@krotT_ext _ _ _) (@krotTM _ _ _) (@krotT1 _ _ _) (krotT_bar pc) kapplyP gm herm notzero hy redE (contin := contin) (cr := true) (rots := rots) gens tc.
exists ss, gs, rots; split=> // R' L hR hL an.
by have [L' h1 h2] := C94_complete gm d2 (parr_orthonormal R) (parr_complete R) (pd0 R) bd nsP np ne e hR hL an; exists L'.
Qed.
(* without given candidates: time reversal, particle-hole and chiral symmetry are in the result exactly if there is a
   unitary with which they are symmetries *)
Theorem C101_default : (4 <= fuel)%N -> (4 < gf)%N ->
  exists symset, sym None false false = Some (Ok (sort symset, [seq (0, L) | L <- onsite_symmetries Ps])) /\
    (forall x : npge, inset (@npge_eq F d n) symset x <-> pR (val x) = 1%:M /\ symmetric ko kap m (val x)) /\
    (forall x : npge, List.In x symset -> symmetry ko kap m (val x)).
Proof.
move=> l1 l2; have [c tc cE] := tested_default l1 l2.
have [ss [gs [e [h1 [h2 _] _ h4] _]]] := C101_symmetries false tc.
have cl : GroupSpec.closed (@npge_eq F d n) (@npge_mul F d n) c.
  by have [G [E _ _ cl _]] := default_candidatesP ordP l2; case: tc; rewrite E => -[<-].
exists ss; split=> //; split=> // x; split=> [xs|[/cE xc xs]]; last exact/h1.
have xc : inset (@npge_eq F d n) c x.
  case/h4: xs => [/npge_eqP[e1 _ _]|[y gy /npge_eqP[e1 _ _]]]; first exact/cE.
  apply/cE; rewrite e1; elim: gy => [z [/cE]//|z z' _ r1 _ r2 /=]; by rewrite r1 r2 mulmx1.
by split; [apply/cE|apply/h1].
Qed.
End Model.

Section Bloch.
Local Notation bap := (@pge_apply_bloch F d P pone pc Mom n).
Variable m : model bkey Mom mat.
Local Notation coef k := (dget bo (mdata m) (Sym k) : 'M[C]_n.+1).
Hypotheses (gm : FamilyProofs.good bo mom m) (herm : forall k : bkey, coef (bconj pc k) = dagger (coef k)) (notzero : exists k, coef k != 0).
Local Notation H := [seq kv.2 | kv <- mdata m].
Variable Ps : seq (stack F n.+1).
Hypotheses (hy : hyp H) (redE : reduce H = Ok Ps).
(* continuous_symmetries of a BlochModel, 685-687 *)
Local Notation contin := (fun _ => Ok [::]).
Local Notation sym := (symmetries bo eigh nsR nsC bap (fun H : seq 'M[C]_n.+1 => reduce H) contin ord pick sort fuel gf m).
Let bapplyP (g : pge) (m' : model bkey Mom mat) := @bapply_eval F d n P pone pc pcK Mom mom g m'.
Let kcK : involutive (bconj pc : bkey -> bkey). Proof. exact: (bconjK pcK). Qed.
Theorem C101_find_bloch (g : pge) : pR g \in unitmx -> pU g = None ->
  exists2 r, find_model bo eigh nsR nsC bap Ps m g = Ok r &
  if r is Some U then unitarymx U /\ preserves bo bap m (set_U g U) else ~ symmetric bo bap m g.
Proof. by apply: (find_ok kcK (@brotT_ext _ _ _) (@brotTM _ _ _) (@brotT1 _ _ _) (brotT_bar pc) bapplyP gm herm notzero hy redE). Qed.
Theorem C101_symmetries_bloch given candidates cr gens : tested given candidates ->
  exists symset genset, [/\ sym given cr gens = Some (Ok (sort (if gens then genset else symset), [seq (0, L) | L <- onsite_symmetries Ps])),
    found_group bo bap m candidates symset genset &
    is_basis rc (onsite_symmetries Ps) (fun X => [/\ dagger X = X, \tr X = 0 & forall k, X *m coef k = coef k *m X])].
Proof.
move=> tc; have [|ss [gs [fg e]]] := driver kcK (@brotT_ext _ _ _) (@brotTM _ _ _) (@brotT1 _ _ _) (brotT_bar pc) bapplyP gm herm notzero hy redE (contin := contin) (cr := cr) (rots := [::]) gens tc; first by [].
exists ss, gs; split=> //; first by rewrite e; case: (cr); rewrite cats0.
exact: (conserved_ok gm herm notzero hy redE).
Qed.
End Bloch.

(* ---- the identity matrix at the key 1: time reversal is found, chiral symmetry is not ---- *)
Section Identity.
Hypothesis pc1 : pc pone = pone.
Local Notation kap := (@pge_apply F d P pone pc Mom n).
Definition const_model (A : 'M[C]_n.+1) : model key Mom mat := Mk [:: (Sym ko, A : mat)] [::] mom.
Local Notation coef m k := (dget ko (mdata m) (Sym k) : 'M[C]_n.+1).
Lemma const_good A : FamilyProofs.good ko mom (const_model A). Proof. by split. Qed.
Lemma const_coef A k : coef (const_model A) k = if k == ko then A else 0.
Proof. by rewrite /dget /= /pk_eq /= eq_sym; case: ifP. Qed.
Lemma const_eval A ev : meval ko ev (const_model A) = ev ko *: (A : mat). Proof. by rewrite /meval big_seq1. Qed.
Lemma kconj_one : kconj pc ko = ko. Proof. by rewrite /kconj /kone /= oppr0 pc1. Qed.
Lemma const_herm A : dagger A = A -> forall k : key, coef (const_model A) (kconj pc k) = dagger (coef (const_model A) k).
Proof.
move=> h k; rewrite !const_coef -{1}kconj_one (inj_eq (inv_inj (kconjK pcK))); case: ifP => _; by rewrite ?h ?dagger0.
Qed.
Lemma krotT_one R ev : krotT R ev ko = ev ko.
Proof.
rewrite krotTE; transitivity (\sum_(x <- [:: (1, Keys.pw0 d)] : seq (C * pw d)) x.1 * ev (x.2, 0, pone)); last by rewrite big_seq1 mul1r.
rewrite mul0mx; apply: (@terms_ext _ _ _ _ _ (fun p => ev (p, 0, pone))) => v.
by rewrite lev_rotpoly /lev big_seq1 mul1r /pev !big1 // => i _; rewrite ffunE expr0.
Qed.
Lemma const_preserves A g : pR g \in unitmx -> preserves ko kap (const_model A) g <-> PropApply.act g A = A.
Proof.
move=> u; rewrite (preservesP (fun g m _ => @kapply_eval F d n P pone pc pcK Mom mom g m) (const_good A) u).
have ph ev : phi (kconj pc : key -> key) (@krotT F d P) g ev ko = if pconj g then conjc (ev ko) else ev ko.
  by rewrite /phi krotT_one; case: (pconj g); rewrite // /kbar kconj_one.
have aZ c : PropApply.act g (c *: A) = (if pconj g then conjc c else c) *: PropApply.act g A.
  have e : (if panti g then -1 else 1) *: PGE.cj (pconj g) (c *: A) = (if pconj g then conjc c else c) *: ((if panti g then -1 else 1) *: PGE.cj (pconj g) A).
    by case: (pconj g); rewrite /= ?mxconjZ !scalerA mulrC.
  by rewrite /PropApply.act e; case: (pU g) => [U|] //=; rewrite -scalemxAr -scalemxAl.
split=> [/(_ (fun=> 1))|h ev]; rewrite !const_eval ph aZ.
  by case: (pconj g); rewrite ?(rmorph1 (conjc_rmorphism F)) ?scale1r.
by case: (pconj g); rewrite ?conjcK h.
Qed.
Example C101_example : tol = 0 -> atol = 0 -> ntol = 0 -> (4 <= fuel)%N -> (4 < gf)%N ->
  exists Ps symset, [/\ reduce [:: 1%:M : 'M[C]_n.+1] = Ok Ps,
    symmetries ko eigh nsR nsC kap (fun H : seq 'M[C]_n.+1 => reduce H) (fun Ps => continuous_symmetries pone nsR (@pd F n Ps) (@pP F n Ps) (const_model 1%:M))
      ord pick sort fuel gf (const_model 1%:M) None false false = Some (Ok (sort symset, [seq (0, L) | L <- onsite_symmetries Ps])),
    inset (@npge_eq F d n) symset (onsite F d n true false) & ~ inset (@npge_eq F d n) symset (onsite F d n false true)].
Proof.
move=> tz az nz l1 l2; have [S [e sz w]] := C98_example nsC t0 a0 n0 d0 eighP svdP nsP lsqP nsvdP eigP qrP compP argP (ltn0Sn n) tz az nz.
have hy : hyp [:: 1%:M : 'M[C]_n.+1] by apply: (hyp_one dtol n0 nsP lsqP nsvdP (ltn0Sn n) nz).
have nz1 : exists k : key, coef (const_model 1%:M) k != 0 by exists ko; rewrite const_coef eqxx oner_eq0.
have [ss [E [h _]]] := @C101_default (const_model 1%:M) (const_good _) (const_herm (dagger1 _ _)) nz1 [:: S] hy e l1 l2.
exists [:: S], ss; split=> //.
  apply/h; split=> //; exists 1%:M; first by split; rewrite dagger1 mulmx1.
  by apply/const_preserves; rewrite ?unitmx1 // /PropApply.act /= scale1r mxconj1 dagger1 !mulmx1.
case/h=> _ [U [u1 u2]] /const_preserves; rewrite unitmx1 => /(_ isT); rewrite /PropApply.act /= scaleN1r mulmxN mulNmx mulmx1 u1 => /eqP.
by rewrite eq_sym -subr_eq0 opprK -mulr2n -scaler_nat scaler_eq0 pnatr_eq0 /= oner_eq0.
Qed.

(* C102: all elements are symmetries of the Hamiltonian 0, but _find_unitary raises an exception *)
Theorem C102_zero_error (m : model key Mom mat) Ps g : FamilyProofs.good ko mom m -> (forall k, coef m k = 0) -> pU g = None ->
  find_model ko eigh nsR nsC kap Ps m g = Err IndexError.
Proof.
move=> gm z Ug; rewrite /find_model Ug.
have e : mdata (nonzero m) = [::].
  case E: (mdata (nonzero m)) => [|kv s] //.
  have kin : den ko kv.1 \in dkeys ko (mdata (nonzero m)) by rewrite E mem_head.
  by move: kin; rewrite (nonzero_keys _ gm) z eqxx.
have [Rm [-> gR hR]] := kapply_eval pcK g (nonzero_good gm); cbn [bind].
have nl : nilp (mdata (nonzero m)) by rewrite /nilp e.
rewrite ifF; first by rewrite nl.
apply/negbTE; rewrite negbK; apply/(same_keysP gm gR) => k; rewrite z eqxx; apply/esym/negbTE; rewrite negbK.
case: (gR) => wR _ _; rewrite (coefE k wR) hR /meval e big_nil.
have e0 : (if panti g then -1 else 1) *: PGE.cj (pconj g) (0 : 'M[C]_n.+1) = 0 by case: (pconj g); rewrite /= ?mxconj0 scaler0.
by rewrite /PropApply.act e0 Ug.
Qed.
Theorem C102_zero_symmetric g : pR g \in unitmx -> preserves ko kap (const_model 0) g.
Proof.
move=> u; apply/const_preserves => //.
have e0 : (if panti g then -1 else 1) *: PGE.cj (pconj g) (0 : 'M[C]_n.+1) = 0 by case: (pconj g); rewrite /= ?mxconj0 scaler0.
by rewrite /PropApply.act e0; case: (pU g) => [U|] //=; rewrite mulmx0 mul0mx.
Qed.
Theorem C102_zero_refuted Ps g : pR g \in unitmx -> pU g = None ->
  symmetric ko kap (const_model 0) g /\ find_model ko eigh nsR nsC kap Ps (const_model 0) g = Err IndexError.
Proof.
move=> u Ug; split; first by exists 1%:M; [split; rewrite dagger1 mulmx1|apply: C102_zero_symmetric].
by apply: (C102_zero_error _ (const_good 0)) => // k; rewrite const_coef if_same.
Qed.
End Identity.
End Driver.

Print Assumptions C101_find.
Print Assumptions C101_rotations.
Print Assumptions C101_symmetries_bloch.
Print Assumptions C102_zero_refuted.
Print Assumptions C101_no_candidates.
