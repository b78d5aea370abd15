(* Model's shape and format discipline, qsymm/model.py: __init__ 205-236,
   __setitem__ 267-274, __getitem__ 277-283, __missing__ 286-297, the checks of
   __add__ 312-328, tocsr 614-624, toarray 626-639, _shape_and_format 1005-1024.
   Here values are dynamically typed, as in Python, and carry their entries as a
   flat list.  Keys are Python objects up to == ; [norm] is _symbol_normalizer. *)
From mathcomp Require Import all_ssreflect all_algebra.
From Verif Require Import Prelude.

Set Implicit Arguments.
Unset Strict Implicit.
Unset Printing Implicit Defensive.
Import GRing.Theory.
Local Open Scope ring_scope.

(* classes of values: np.complex128, np.ndarray, a subclass of spmatrix, LinearOperator *)
Inductive fmt := FComplex | FDense | FSparse of nat | FLinOp.
Definition fmt_code (f : fmt) : nat + nat :=
  match f with FComplex => inl 0%N | FDense => inl 1%N | FLinOp => inl 2%N | FSparse n => inr n end.
Definition code_fmt (c : nat + nat) : fmt :=
  match c with inl 0%N => FComplex | inl 1%N => FDense | inl _ => FLinOp | inr n => FSparse n end.
Lemma fmt_codeK : cancel fmt_code code_fmt. Proof. by case. Qed.
Definition fmt_eqMixin := CanEqMixin fmt_codeK.
Canonical fmt_eqType := EqType fmt fmt_eqMixin.

Definition csr : nat := 0.    (* the subclass csr_matrix *)

Section Shape.
Variables (K : eqType) (norm : K -> K) (kone : K) (C : ringType) (Mom : eqType).

(* a Python number (without .shape) or an array-like of a given class; a
   LinearOperator built by aslinearoperator has an attribute .A, the wrapped matrix *)
Inductive pyval :=
| PyNumber of C
| Arr of fmt & seq nat & seq C
| LinOp of seq nat & seq C & option fmt.

Definition ventries (v : pyval) : seq C :=
  match v with PyNumber x => [:: x] | Arr _ _ e => e | LinOp _ e _ => e end.
(* v.shape; None: AttributeError *)
Definition vshape (v : pyval) : option (seq nat) :=
  match v with PyNumber _ => None | Arr _ s _ => Some s | LinOp s _ _ => Some s end.
(* isinstance(v, f) for f in the classes above *)
Definition isinst (v : pyval) (f : fmt) : bool :=
  match v with PyNumber _ => false | Arr g _ _ => g == f | LinOp _ _ _ => f == FLinOp end.
(* isinstance(v, Number) *)
Definition isnumber (v : pyval) : bool :=
  match v with PyNumber _ => true | Arr FComplex _ _ => true | _ => false end.
Definition complex128 (v : pyval) : pyval := Arr FComplex [::] (ventries v).

(* _shape_and_format 1005-1024 *)
Definition shape_and_format (v : pyval) : seq nat * fmt :=
  match v with
  | PyNumber _ => ([::], FComplex)
  | Arr f s _ => (s, f)
  | LinOp s _ _ => (s, FLinOp)
  end.

Record dmodel := DM { ddata : seq (K * pyval); dshape : seq nat; dfmt : fmt; dmom : Mom }.

Fixpoint lookup (d : seq (K * pyval)) (k : K) : option pyval :=
  if d is kv :: d' then if k == kv.1 then Some kv.2 else lookup d' k else None.
Fixpoint store (d : seq (K * pyval)) (k : K) (v : pyval) : seq (K * pyval) :=
  if d is kv :: d' then if k == kv.1 then (kv.1, v) :: d' else kv :: store d' k v else [:: (k, v)].

(* __setitem__ 267-274 *)
Definition setitem (m : dmodel) (k : K) (v : pyval) : res dmodel :=
  if isinst v (dfmt m) && (vshape v == Some (dshape m))
  then Ok (DM (store (ddata m) k v) (dshape m) (dfmt m) (dmom m))
  else if isnumber v && (dshape m == [::])
  then Ok (DM (store (ddata m) k (complex128 v)) (dshape m) (dfmt m) (dmom m))
  else Err ValueError.

Definition nentries (s : seq nat) : nat := foldr muln 1%N s.
(* __missing__ 286-297 *)
Definition missing (m : dmodel) : pyval :=
  match dfmt m with
  | FComplex => Arr FComplex [::] [:: 0]
  | FDense => Arr FDense (dshape m) (nseq (nentries (dshape m)) 0)
  | FSparse n => Arr (FSparse n) (dshape m) (nseq (nentries (dshape m)) 0)
  | FLinOp => LinOp (dshape m) (nseq (nentries (dshape m)) 0) (Some (FSparse csr))
  end.

(* __getitem__ 277-283; returns the value and leaves the model as it is *)
Definition getitem (m : dmodel) (k : K) : pyval * dmodel :=
  (if lookup (ddata m) k is Some v then v
   else if lookup (ddata m) (norm k) is Some v then v
   else missing m, m).

(* __init__ 205-236, after the dictionary of terms has been formed *)
Definition init_checks (data : seq (K * pyval)) (shape : option (seq nat)) (format : option fmt)
    (mom : Mom) : res dmodel :=
  let '(sh, fo) :=
    if shape is Some s then if format is Some f then (Some s, Some f)
      else if data is kv :: _ then let '(s', f') := shape_and_format kv.2 in (Some s', Some f')
      else (shape, format)
    else if data is kv :: _ then let '(s', f') := shape_and_format kv.2 in (Some s', Some f')
    else (shape, format) in
  let data' := if sh == Some [::] then [seq (kv.1, complex128 kv.2) | kv <- data] else data in
  (* an empty Model without shape or format is accepted with a warning *)
  if (sh, fo) is (Some s, Some f) then
    if ~~ all (fun kv : K * pyval => isinst kv.2 f) data' then Err ValueError
    else if ~~ all (fun kv : K * pyval => vshape kv.2 == Some s) data' then Err ValueError
    else Ok (DM data' s f mom)
  else Err TypeError.   (* empty Model without shape or format: not represented here *)

(* the checks of __add__ for two Models 312-323; the sum itself is [vadd] *)
Definition dadd (vadd : pyval -> pyval -> pyval) (a b : dmodel) : res dmodel :=
  if nilp (ddata b) then Ok a
  else if nilp (ddata a) then Ok b
  else if (dfmt a != dfmt b) || (dshape a != dshape b) then Err ValueError
  else if dmom a != dmom b then Err ValueError
  else foldl (fun r (kv : K * pyval) => do m <- r; setitem m kv.1 kv.2)
    (Ok (DM [::] (dshape a) (dfmt a) (dmom a)))
    ([seq (kv.1, vadd kv.2 (getitem b kv.1).1) | kv <- ddata a & kv.1 \in map fst (ddata b)] ++
     [seq kv <- ddata a | kv.1 \notin map fst (ddata b)] ++
     [seq kv <- ddata b | kv.1 \notin map fst (ddata a)]).

(* scipy.sparse.csr_matrix(v): numbers become 1x1, one dimensional arrays become rows *)
Definition to_csr (v : pyval) : pyval :=
  let s := match vshape v with None => [:: 1%N; 1%N] | Some [::] => [:: 1%N; 1%N]
           | Some [:: n] => [:: 1%N; n] | Some s => s end in
  Arr (FSparse csr) s (ventries v).

(* tocsr 614-624: in the last branch nothing is stored *)
Definition tocsr (m : dmodel) : res dmodel :=
  foldl (fun r (kv : K * pyval) => do m' <- r;
      match kv.2 with LinOp _ _ _ => Ok m' | v => setitem m' kv.1 (to_csr v) end)
    (Ok (DM [::] (dshape m) (FSparse csr) (dmom m))) (ddata m).

(* toarray 626-639: `elif scipy.sparse.spmatrix:` is always true, so val.A is taken *)
Definition toarray (m : dmodel) : res dmodel :=
  foldl (fun r (kv : K * pyval) => do m' <- r;
      match kv.2 with
      | Arr FDense _ _ as v => setitem m' kv.1 v
      | PyNumber x => setitem m' kv.1 (Arr FDense [::] [:: x])
      | Arr FComplex s e => setitem m' kv.1 (Arr FDense s e)
      | Arr _ s e => setitem m' kv.1 (Arr FDense s e)
      | LinOp s e (Some f) => setitem m' kv.1 (Arr f s e)
      | LinOp _ _ None => Err AttributeError
      end)
    (Ok (DM [::] (dshape m) FDense (dmom m))) (ddata m).

(* every value has the class and shape of the Model *)
Definition well_typed (m : dmodel) : bool :=
  all (fun kv : K * pyval => isinst kv.2 (dfmt m) && (vshape kv.2 == Some (dshape m))) (ddata m).
Definition distinct_keys (m : dmodel) : bool := uniq (map fst (ddata m)).
End Shape.
