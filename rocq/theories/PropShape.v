(* C12 (rejections), C15, C73, C81, C82: dynamic checks of Models. *)
From mathcomp Require Import all_ssreflect all_algebra.
From Verif Require Import Prelude ModelShape.

Set Implicit Arguments.
Unset Strict Implicit.
Unset Printing Implicit Defensive.
Import GRing.Theory.
Local Open Scope ring_scope.

Section Props.
Variables (K : eqType) (norm : K -> K) (C : ringType) (Mom : eqType).
Local Notation dmodel := (dmodel K C Mom).
Local Notation getitem := (@getitem K norm C Mom).
Implicit Types (m : dmodel) (k : K) (v : pyval C).

Lemma lookup_store (d : seq (K * pyval C)) k v k' :
  lookup (store d k v) k' = if k' == k then Some v else lookup d k'.
Proof.
elim: d => //= kv d IH; case: (eqVneq k kv.1) => [->|ne] /=; first by case: ifP.
by rewrite IH; case: (eqVneq k' kv.1) => [->|//]; rewrite eq_sym (negPf ne).
Qed.

Lemma setitemP m k v m' : setitem m k v = Ok m' ->
  exists2 w, ventries w = ventries v & m' = DM (store (ddata m) k w) (dshape m) (dfmt m) (dmom m).
Proof.
rewrite /setitem; case: ifP => _; first by case=> <-; exists v.
by case: ifP => // _ [<-]; exists (complex128 v).
Qed.

(* reading a missing key gives the zero of the model's shape and class *)
Theorem C15_missing_is_zero m k :
  lookup (ddata m) k = None -> lookup (ddata m) (norm k) = None ->
  let v := (getitem m k).1 in
  [/\ isinst v (dfmt m), all (fun x => x == 0) (ventries v)
    & dfmt m != FComplex -> vshape v = Some (dshape m)].
Proof.
rewrite /getitem => -> ->; rewrite /missing /=; case: (dfmt m) => [||n|] /=.
all: by rewrite ?eqxx ?andbT; split=> //; apply/allP => x; rewrite ?inE // mem_nseq => /andP[].
Qed.

(* reading never changes the model *)
Theorem C15_read_is_pure m k : (getitem m k).2 = m. Proof. by []. Qed.

(* what is written is read back, other keys are untouched *)
Theorem C15_write_then_read m k v m' : setitem m k v = Ok m' ->
  ventries (getitem m' k).1 = ventries v /\
  (forall k', k' != k -> norm k' != k -> (getitem m' k').1 = (getitem m k').1).
Proof.
case/setitemP => w vw ->; rewrite /getitem /=; split; first by rewrite lookup_store eqxx.
by move=> k' /negPf n1 /negPf n2; rewrite !lookup_store n1 n2.
Qed.

(* exactly the values of the right class and shape (or numbers, for scalar models) are accepted *)
Theorem C15_write_accepts_exactly m k v :
  (exists m', setitem m k v = Ok m') <->
  (isinst v (dfmt m) /\ vshape v = Some (dshape m)) \/ (isnumber v /\ dshape m = [::]).
Proof.
rewrite /setitem; case: andP => [[-> /eqP ->]|N].
  by split=> _; [left|eexists].
case: andP => [[-> /eqP ->]|N'].
  by split=> _; [right|eexists].
by split=> [[m' //]|[[h /eqP e]|[h /eqP e]]]; [case: N|case: N'].
Qed.

Theorem C15_write_rejects m k v :
  ~ (isinst v (dfmt m) /\ vshape v = Some (dshape m)) -> ~ (isnumber v /\ dshape m = [::]) ->
  setitem m k v = Err ValueError.
Proof.
rewrite /setitem; case: andP => [[-> /eqP ->] []//|_ _].
by case: andP => [[-> /eqP ->] []|].
Qed.

(* writing preserves the invariant "all values have the class and shape of the Model";
   scalar models have class np.complex128 *)
Theorem C15_write_preserves_types m k v m' :
  (dshape m = [::] -> dfmt m = FComplex) -> well_typed m -> setitem m k v = Ok m' -> well_typed m'.
Proof.
move=> sc w; rewrite /setitem.
have st x (d : seq (K * pyval C)) (P : pyval C -> bool) : P x -> all (fun kv => P kv.2) d ->
    all (fun kv => P kv.2) (store d k x).
  by move=> Px; elim: d => [_|kv d IH /= /andP[h1 h2]] /=; rewrite ?Px //; case: ifP => _ /=; rewrite ?Px ?h1 ?h2 ?IH.
pose P (x : pyval C) := isinst x (dfmt m) && (vshape x == Some (dshape m)).
case: ifP => [h [<-]|_]; first exact: (st v _ P).
by case: ifP => // /andP[h /eqP s0] [<-]; apply: (st _ _ P) => //=; rewrite /P /= s0 (sc s0) !eqxx.
Qed.

(* Models of different shape or class cannot be added (unless one of them is empty) *)
Theorem C12_shape_mismatch_rejected vadd (a b : dmodel) :
  ~~ nilp (ddata a) -> ~~ nilp (ddata b) ->
  (dfmt a <> dfmt b \/ dshape a <> dshape b) -> dadd norm vadd a b = Err ValueError.
Proof.
rewrite /dadd => /negPf -> /negPf -> H.
by rewrite (_ : _ || _ = true) //; case: H => /eqP ->; rewrite ?orbT.
Qed.

(* a Model built with checks is well typed *)
Theorem C82_constructed_models_are_well_typed data shape format (mom : Mom) m :
  init_checks data shape format mom = Ok m -> well_typed m.
Proof.
rewrite /init_checks; case: (if shape is Some s then _ else _) => -[s|] [f|] //.
case: ifP => // /negbFE h1; case: ifP => // /negbFE h2 [<-].
by rewrite /well_typed /= (all_predI (fun kv => isinst kv.2 f) (fun kv => vshape kv.2 == Some s)) h1.
Qed.

(* shape and format both given: the shape is honoured *)
Theorem C82_explicit_shape_and_format data s f (mom : Mom) m :
  init_checks data (Some s) (Some f) mom = Ok m -> dshape m = s /\ dfmt m = f.
Proof. by rewrite /init_checks; case: ifP => // _; case: ifP => // _ [<-]. Qed.

(* C73, positive part *)
Lemma store_rcons (d : seq (K * pyval C)) k v : k \notin map fst d -> store d k v = rcons d (k, v).
Proof. by elim: d => //= kv d IH; rewrite inE negb_or => /andP[/negPf -> /IH ->]. Qed.

Lemma Inall (T : Type) (P : pred T) d : (forall x, List.In x d -> P x) -> all P d.
Proof. by elim: d => //= x d IH H; rewrite H ?IH //; [move=> y h; apply: H; right|left]. Qed.

Section Convert.
Variables (sh : seq nat) (fo : fmt) (mom : Mom) (conv : pyval C -> pyval C).
Variable step : dmodel -> K * pyval C -> res dmodel.
Lemma convert_all (d : seq (K * pyval C)) (d0 : seq (K * pyval C)) :
  uniq (map fst (d0 ++ d)) ->
  (forall m kv, List.In kv d -> dshape m = sh -> dfmt m = fo ->
      step m kv = setitem m kv.1 (conv kv.2)) ->
  (forall kv, List.In kv d -> isinst (conv kv.2) fo && (vshape (conv kv.2) == Some sh)) ->
  foldl (fun r kv => do x <- r; step x kv) (Ok (DM d0 sh fo mom)) d =
  Ok (DM (d0 ++ [seq (kv.1, conv kv.2) | kv <- d]) sh fo mom).
Proof.
elim: d d0 => [|kv d IH] d0 u Hs Hc /=; first by rewrite cats0.
rewrite Hs //=; last by left.
rewrite /setitem /= Hc; last by left.
rewrite store_rcons; last first.
  by move: u; rewrite map_cat cat_uniq => /and3P[_ /hasPn/(_ kv.1)] /=; rewrite mem_head => ->.
rewrite IH; first by rewrite cat_rcons.
- by move: u; rewrite -cat_rcons !map_cat !map_rcons.
- by move=> m kv' H; apply: Hs; right.
- by move=> kv' H; apply: Hc; right.
Qed.
End Convert.

Definition same_entries m m' : Prop :=
  map fst (ddata m') = map fst (ddata m) /\
  map (fun kv => ventries kv.2) (ddata m') = map (fun kv => ventries kv.2) (ddata m).

(* two-dimensional dense or sparse values *)
Theorem C73_tocsr_matrices m (r c : nat) : distinct_keys m -> well_typed m ->
  dshape m = [:: r; c] -> dfmt m <> FLinOp ->
  exists m', [/\ tocsr m = Ok m', well_typed m', dfmt m' = FSparse csr, dshape m' = dshape m
    & same_entries m m'].
Proof.
move=> u w s nl.
have Hin kv : List.In kv (ddata m) -> isinst kv.2 (dfmt m) /\ vshape kv.2 = Some [:: r; c].
  rewrite -s; move: w; rewrite /well_typed; elim: (ddata m) => //= x d IH /andP[/andP[h1 h2] h3] [<-|/IH]; last exact.
  by split=> //; apply/eqP.
have Hm kv : List.In kv (ddata m) -> exists f e, kv.2 = Arr f [:: r; c] e.
  case/Hin; case: kv.2 => [//|f s' e _ [->]|s' e o /eqP //]; by exists f, e.
rewrite /tocsr (@convert_all (dshape m) (FSparse csr) (dmom m) (@to_csr C)) //; last 2 first.
- by move=> m' kv /Hm [f [e ->]].
- by move=> kv /Hm [f [e ->]]; rewrite /= s eqxx.
eexists; split; first reflexivity.
- rewrite /well_typed /= all_map; apply: Inall => kv /Hm [f [e E]] /=.
  by rewrite E s /= eqxx.
- by [].
- by [].
- split; rewrite /= -map_comp //; apply: eq_map => kv /=.
Qed.

(* dense, sparse and scalar values *)
Theorem C73_toarray_matrices m : distinct_keys m -> well_typed m -> dfmt m <> FLinOp ->
  exists m', [/\ toarray m = Ok m', well_typed m', dfmt m' = FDense, dshape m' = dshape m
    & same_entries m m'].
Proof.
move=> u w nl.
have Hm kv : List.In kv (ddata m) -> exists f e, kv.2 = Arr f (dshape m) e.
  move: w; rewrite /well_typed; elim: (ddata m) => //= x d IH /andP[/andP[h1 h2] h3] [<-|]; last exact: IH.
  move: h1 h2; case: x.2 => [//|f s' e _ /eqP [->]|s' e o /eqP //]; by exists f, e.
pose conv (v : pyval C) := if v is Arr _ s e then Arr FDense s e else v.
rewrite /toarray (@convert_all (dshape m) FDense (dmom m) conv) //; last 2 first.
- by move=> m' kv /Hm [f [e ->]]; case: f.
- by move=> kv /Hm [f [e ->]]; rewrite /= eqxx.
eexists; split; first reflexivity.
- rewrite /well_typed /= all_map; apply: Inall => kv /Hm [f [e E]] /=.
  by rewrite E /= eqxx.
- by [].
- by [].
- split; rewrite /= -map_comp //; apply: eq_map => kv /=.
  by case: kv.2.
Qed.
End Props.

(* ---- refutations and concrete cases ---- *)
Section Concrete.
Local Notation dmodel := (dmodel [eqType of nat] [ringType of int] [eqType of nat]).
Definition eye2 : seq int := [:: 1; 0; 0; 1].

(* C73 is false for LinearOperator: tocsr silently returns an empty Model ... *)
Theorem C73_tocsr_linear_operator_refuted :
  exists m m' : dmodel, [/\ well_typed m, ddata m <> [::], tocsr m = Ok m' & ddata m' = [::]].
Proof. by exists (DM [:: (1%N, LinOp [:: 2; 2]%N eye2 None)] [:: 2; 2]%N FLinOp 0%N); eexists; split. Qed.

(* ... toarray raises for a LinearOperator without a wrapped dense matrix ... *)
Theorem C73_toarray_linear_operator_refuted :
  exists m m' : dmodel, [/\ well_typed m, toarray m = Err AttributeError,
     well_typed m' & toarray m' = Err ValueError].
Proof.
exists (DM [:: (1%N, LinOp [:: 2; 2]%N eye2 None)] [:: 2; 2]%N FLinOp 0%N),
       (DM [:: (1%N, LinOp [:: 2; 2]%N eye2 (Some (FSparse csr)))] [:: 2; 2]%N FLinOp 0%N).
by split.
Qed.

(* ... and tocsr raises for scalar and one-dimensional Models *)
Theorem C73_tocsr_scalar_refuted :
  exists m m' : dmodel, [/\ well_typed m, tocsr m = Err ValueError, well_typed m'
    & tocsr m' = Err ValueError].
Proof.
exists (DM [:: (1%N, Arr FComplex [::] [:: 5%:Z])] [::] FComplex 0%N),
       (DM [:: (1%N, Arr FDense [:: 2]%N [:: 5%:Z; 6%:Z])] [:: 2]%N FDense 0%N).
by split.
Qed.

(* C81 is false: after m['x'] = v the term stored under Symbol('x') is unchanged.
   Keys: 0 is the string 'x', 1 is Symbol('x') *)
Theorem C81_text_key_assignment_refuted :
  exists (norm : nat -> nat) (m m' : dmodel) v,
    [/\ norm 0%N = 1%N, (forall k, norm (norm k) = norm k), setitem m 0%N v = Ok m',
        ventries (getitem norm m 0%N).1 = ventries (getitem norm m 1%N).1 &
        ventries (getitem norm m' 1%N).1 <> ventries v /\
        ventries (getitem norm m' 0%N).1 = ventries v].
Proof.
exists (fun=> 1%N), (DM [:: (1%N, Arr FDense [:: 1]%N [:: 5%:Z])] [:: 1]%N FDense 0%N); eexists.
by exists (Arr FDense [:: 1]%N [:: 6%:Z]); split.
Qed.

(* C82 is false: shape=(3,3) is ignored when format is not given *)
Theorem C82_explicit_shape_ignored_refuted :
  exists (data : seq (nat * pyval [ringType of int])) (m : dmodel),
    init_checks data (Some [:: 3; 3]%N) None 0%N = Ok m /\ dshape m = [:: 2; 2]%N.
Proof. by exists [:: (1%N, Arr FDense [:: 2; 2]%N eye2)]; eexists. Qed.

Example C15_example :
  let m := DM [:: (1%N, Arr FDense [:: 2]%N [:: 5%:Z; 6%:Z])] [:: 2]%N FDense 0%N : dmodel in
  [/\ (getitem id m 7%N).1 = Arr FDense [:: 2]%N [:: 0; 0],
      setitem m 1%N (Arr FDense [:: 3]%N [:: 1; 1; 1]) = Err ValueError &
      exists m', setitem m 2%N (Arr FDense [:: 2]%N [:: 1; 1]) = Ok m' /\ size (ddata m') = 2%N].
Proof. by split=> //; eexists. Qed.

Example C73_example :
  let m := DM [:: (1%N, Arr (FSparse 3) [:: 2; 2]%N eye2)] [:: 2; 2]%N (FSparse 3) 0%N : dmodel in
  exists m', toarray m = Ok m' /\ ddata m' = [:: (1%N, Arr FDense [:: 2; 2]%N eye2)].
Proof. by eexists. Qed.
End Concrete.

Print Assumptions C15_write_then_read.
Print Assumptions C15_write_accepts_exactly.
Print Assumptions C73_tocsr_matrices.
Print Assumptions C82_constructed_models_are_well_typed.
