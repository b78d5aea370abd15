(* functools.lru_cache, as used in qsymm/groups.py:21, 43, 56, 70 and qsymm/model.py:980, 991, 996.

   The cache maps arguments to results; two arguments share an entry if they have the same hash and compare equal.  [same] is that
   comparison.  Calls that raise are not cached.  The least recently used entry is dropped when the cache is full. *)
From mathcomp Require Import all_ssreflect all_algebra.
From Verif Require Import Prelude Tolerance PGERep.
Set Implicit Arguments.
Unset Strict Implicit.
Unset Printing Implicit Defensive.
Import GRing.Theory Num.Theory.
Local Open Scope ring_scope.

Section Cache.
Variables (A V : Type) (same : A -> A -> bool) (maxsize : option nat) (f : A -> res V).
Definition cache := seq (A * V).

Fixpoint lookup (c : cache) (a : A) : option V :=
  if c is (a', v) :: c' then if same a' a then Some v else lookup c' a else None.
Fixpoint forget (c : cache) (a : A) : cache :=
  if c is (a', v) :: c' then if same a' a then c' else (a', v) :: forget c' a else [::].
(* the key stored with an entry is the one of the call which created it *)
Fixpoint touch (c : cache) (a : A) : cache :=
  if c is (a', v) :: c' then if same a' a then [:: (a', v)] else touch c' a else [::].

Definition trim (c : cache) : cache := if maxsize is Some m then take m c else c.

Definition call (c : cache) (a : A) : cache * res V :=
  match lookup c a with
  | Some v => (touch c a ++ forget c a, Ok v)
  | None => match f a with
            | Ok v => (trim ((a, v) :: c), Ok v)
            | Err e => (c, Err e)
            end
  end.

(* the results of a sequence of calls *)
Fixpoint calls (c : cache) (l : seq A) : seq (res V) :=
  if l is a :: l' then let: (c', r) := call c a in r :: calls c' l' else [::].
Fixpoint after (c : cache) (l : seq A) : cache := if l is a :: l' then after (call c a).1 l' else c.
End Cache.

(* ==, and equal hashes, for the arguments of _mul, _inv, _eq, _make_int: tinyarrays of integers and floats with the same entries
   are equal and have the same hash; sympy matrices are compared by their entries *)
Definition rep_same (F : realFieldType) (E : eqType) (fl : E -> F) n (r s : rep F E n) : bool :=
  match r, s with
  | RSym A, RSym B => A == B
  | RSym _, _ | _, RSym _ => false
  | _, _ => as_float fl r == as_float fl s
  end.

(* Python numbers and strings as keys of a Model: True == 1 == 1.0, with equal hashes *)
Inductive pykey := KInt of int | KFloat of int | KBool of bool | KStr of seq nat.
Definition pynum (k : pykey) : option int :=
  match k with KInt z | KFloat z => Some z | KBool b => Some (b : nat)%:Z | KStr _ => None end.
Definition pykey_same (k l : pykey) : bool :=
  match k, l with
  | KStr s, KStr t => s == t
  | _, _ => if pynum k is Some z then pynum l == Some z else false
  end.
(* _symbol_normalizer, model.py:991-993, for such keys: sympify gives an Integer, a Float, a boolean, or parses the string.
   Only floats with integer values are represented. *)
Inductive symbol := SInteger of int | SFloat of int | SBool of bool | SExpr of seq nat.
Definition symbol_normalizer (k : pykey) : res symbol :=
  Ok (match k with KInt z => SInteger z | KFloat z => SFloat z | KBool b => SBool b | KStr s => SExpr s end).
