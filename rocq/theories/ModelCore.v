(* Model of class Model, qsymm/model.py:115-725, at the level of its dictionary
   {symbol: value}.

   [K] is the type of normalised symbolic keys (results of _symbol_normalizer,
   model.py:990-992) with the sympy product [kmul] and sympy.Integer(1) = [kone];
   concrete keys are defined in Keys.v.  Values live in an arbitrary module V over
   a ring C: numbers, dense or sparse matrices of a fixed shape.  The shape and
   format checks are modelled separately in ModelShape.v.  Comparisons with zero
   are exact here.

   A Python dictionary key may also be the raw integer 1 (model.py:333, 348
   write result[1]); it compares equal to sympy's One but is not a sympy object. *)
From mathcomp Require Import all_ssreflect all_algebra.
From Verif Require Import Prelude.

Set Implicit Arguments.
Unset Strict Implicit.
Unset Printing Implicit Defensive.
Import GRing.Theory.
Local Open Scope ring_scope.

Section Dict.
Variables (K : eqType) (kone : K).

Inductive pykey := RawOne | Sym of K.
Definition pykey_opt (k : pykey) : option K := if k is Sym k' then Some k' else None.
Definition opt_pykey (o : option K) : pykey := if o is Some k' then Sym k' else RawOne.
Lemma pykey_optK : cancel pykey_opt opt_pykey. Proof. by case. Qed.
Definition pykey_eqMixin := CanEqMixin pykey_optK.
Canonical pykey_eqType := EqType pykey pykey_eqMixin.
(* the symbolic expression a key denotes; Python's == on keys compares it *)
Definition den (k : pykey) : K := if k is Sym k' then k' else kone.
Definition pk_eq (a b : pykey) : bool := den a == den b.

Variable V : zmodType.
Definition dict := seq (pykey * V).

Definition dkeys (d : dict) : seq K := [seq den kv.1 | kv <- d].
Definition dhas (d : dict) (k : pykey) : bool := has (fun kv => pk_eq k kv.1) d.

(* model.py:277-297, __getitem__ / __missing__: zero if absent *)
Fixpoint dget (d : dict) (k : pykey) : V :=
  if d is kv :: d' then if pk_eq k kv.1 then kv.2 else dget d' k else 0.

(* dict.__setitem__: an equal key already stored keeps its identity *)
Fixpoint dset (d : dict) (k : pykey) (v : V) : dict :=
  if d is kv :: d' then
    if pk_eq k kv.1 then (kv.1, v) :: d' else kv :: dset d' k v
  else [:: (k, v)].

(* dict comprehension {k: v for k, v in l} *)
Definition dict_of (l : seq (pykey * V)) : dict := foldl (fun d kv => dset d kv.1 kv.2) [::] l.

Definition wf_dict (d : dict) : bool := uniq (dkeys d).
End Dict.

Arguments RawOne {K}.
Arguments Sym {K}.

Section Model.
Variables (K : eqType) (kone : K) (kmul : K -> K -> K) (C : ringType).
Variable Mom : eqType.                       (* momenta: tuples of symbols *)

(* attributes data, keep, momenta *)
Record model (V : zmodType) := Mk {
  mdata : seq (pykey K * V);
  mkeep : seq K;
  mmom : Mom }.

Local Notation dget := (dget kone).
Local Notation dset := (dset kone).
Local Notation dhas := (dhas kone).
Local Notation den := (den kone).

(* `k in keep or not keep` *)
Definition kept (keep : seq K) (k : K) : bool := (k \in keep) || nilp keep.

(* zeros_like, model.py:469-475 *)
Definition zeros_like (V W : zmodType) (m : model V) : model W := Mk [::] (mkeep m) (mmom m).

(* copy, model.py:641-648 *)
Definition mcopy (V : zmodType) (m : model V) : model V := Mk (mdata m) (mkeep m) (mmom m).

(* Model(dict, keep=keep, momenta=mom) with normalize=False, model.py:198-202;
   [norm] is symbol_normalizer applied to the keys of the input. *)
Definition construct (V : zmodType) (I : Type) (norm : I -> K) (input : seq (I * V))
    (keep : seq K) (mom : Mom) : model V :=
  Mk (dict_of kone [seq (Sym (norm kv.1), kv.2) | kv <- input & kept keep (norm kv.1)]) keep mom.

Section SameShape.
Variable V : lmodType C.
Implicit Types (a b m : model V).

(* model.py:317-328: the general branch of __add__.  result[key] is set for the
   common keys, the keys of self only and the keys of other only; the order
   (Python iterates over sets) is not observable. *)
Definition add_data (a b : seq (pykey K * V)) : seq (pykey K * V) :=
  [seq (kv.1, kv.2 + dget b kv.1) | kv <- a & dhas b kv.1] ++
  [seq kv <- a | ~~ dhas b kv.1] ++
  [seq kv <- b | ~~ dhas a kv.1].

(* __add__ for two Models with equal shape and format, model.py:304-336 *)
Definition madd a b : res (model V) :=
  if nilp (mdata b) then Ok (mcopy a)
  else if nilp (mdata a) then Ok (mcopy b)
  else if mmom a != mmom b then Err ValueError
  else Ok (Mk (add_data (mdata a) (mdata b)) (mkeep a) (mmom a)).

(* addition when the momenta are known to agree *)
Definition madd' a b : model V := if madd a b is Ok c then c else a.

(* m + value and value + m, model.py:330-333, 344-348: result[1] += other *)
Definition madd_const m (v : V) : model V :=
  Mk (dset (mdata m) RawOne (dget (mdata m) RawOne + v)) (mkeep m) (mmom m).

(* __neg__ 353-356, __sub__ 358-359 *)
Definition mneg m : model V := Mk [seq (kv.1, - kv.2) | kv <- mdata m] (mkeep m) (mmom m).
Definition msub a b : res (model V) := madd a (mneg b).

(* __mul__ by a number 363-365 (numbers commute with values), __truediv__ 450-456 *)
Definition mscale (s : C) m : model V :=
  Mk [seq (kv.1, s *: kv.2) | kv <- mdata m] (mkeep m) (mmom m).

(* sum((type(self)({key: val}, ...) for ...), start): left fold of + *)
Definition msum (start : model V) (l : seq (model V)) : model V := foldl madd' start l.

(* __mul__ / __rmul__ by a sympy expression, 366-373, 403-412; the expression is
   a single symbolic factor s *)
Definition mmul_sym (s : K) m : model V :=
  msum (zeros_like V m)
    [seq construct id [:: (kmul (den kv.1) s, kv.2)] (mkeep m) (mmom m)
       | kv <- mdata m & kept (mkeep m) (kmul (den kv.1) s)].

(* Model(dict, normalize=True, momenta=mom), model.py:246-264: [expand] is the list of
   (numerical factor, symbolic factor) of the summands of the expanded key *)
Definition normalize_data (I : Type) (expand : I -> seq (C * K)) (input : seq (I * V))
    : seq (pykey K * V) :=
  let d := foldl (fun d (kv : I * V) =>
              foldl (fun d (ck : C * K) =>
                 dset d (Sym ck.2) (dget d (Sym ck.2) + ck.1 *: kv.2)) d (expand kv.1))
            [::] input in
  [seq kv <- d | kv.2 != 0].
Definition construct_normalized (I : Type) (expand : I -> seq (C * K)) (input : seq (I * V))
    (mom : Mom) : model V :=
  Mk (normalize_data expand input) [::] mom.

(* transform_symbolic 477-486; a raw key has no sympy methods: func(key) raises *)
Definition transform_symbolic (func : K -> seq (C * K)) m : res (model V) :=
  if all (fun kv => if kv.1 is Sym _ then true else false) (mdata m) then
    Ok (msum (zeros_like V m)
         [seq construct_normalized func [:: (den kv.1, kv.2)] (mmom m) | kv <- mdata m])
  else Err AttributeError.

(* conj 559-565: {key.subs(I, -I): val.conj()} *)
Definition mconj (kconj : K -> K) (vconj : V -> V) m : res (model V) :=
  if all (fun kv => if kv.1 is Sym _ then true else false) (mdata m) then
    Ok (Mk (dict_of kone [seq (Sym (kconj (den kv.1)), vconj kv.2) | kv <- mdata m])
           (mkeep m) (mmom m))
  else Err AttributeError.
End SameShape.

(* T 567-572, trace 574-579, m * array, array * m, m @ array, array @ m, reshape:
   apply a linear map to every value, 395-397, 416-418, 437-440, 444-447 *)
Definition mmap (V W : zmodType) (f : V -> W) (m : model V) : model W :=
  Mk [seq (kv.1, f kv.2) | kv <- mdata m] (mkeep m) (mmom m).

(* __mul__ and __matmul__ of two Models, 374-391, 423-435; [vmul] is the product
   of values (number * number, elementwise, or matrix product) *)
Section Product.
Variables (V1 V2 V3 : lmodType C) (vmul : V1 -> V2 -> V3).
Definition mmul (a : model V1) (b : model V2) : res (model V3) :=
  if mmom a != mmom b then Err ValueError else
  let keep := undup (mkeep a ++ mkeep b) in
  let terms :=
    [seq construct id [:: (kmul (den kv.1) (den kw.1), vmul kv.2 kw.2)] keep (mmom a)
      | kv <- mdata a, kw <- [seq kw <- mdata b | kept keep (kmul (den kv.1) (den kw.1))]] in
  Ok (if terms is t :: ts then msum t ts else zeros_like V3 a).
End Product.

(* __truediv__ by a number, 450-456: 1/other raises for Python's zero as soon as
   there is a term *)
Definition mdiv (F : fieldType) (V : lmodType F) (m : model V) (s : F) : res (model V) :=
  if (s == 0) && ~~ nilp (mdata m) then Err ZeroDivisionError
  else Ok (Mk [seq (kv.1, s^-1 *: kv.2) | kv <- mdata m] (mkeep m) (mmom m)).

(* evaluation at an assignment of values to symbols: sum of symbol * value *)
Definition meval (V : lmodType C) (ev : K -> C) (m : model V) : V :=
  \sum_(kv <- mdata m) ev (den kv.1) *: kv.2.

Definition wf_model (V : zmodType) (m : model V) : bool := wf_dict kone (mdata m).
End Model.
