(* Model.subs: the momenta of the result, qsymm/model.py:501-538.

   Symbols are elements of an eqType; sympy caches symbols, so that [is] and [==] agree on them.  [old] may also be a string, as in
   sympy.Expr.subs: a string is not equal to a symbol, whereas the substitution itself turns it into a symbol. *)
From mathcomp Require Import all_ssreflect.
From Verif Require Import Prelude.
Set Implicit Arguments.
Unset Strict Implicit.
Unset Printing Implicit Defensive.

Section Subs.
Variable S : eqType.
Inductive old := OSym of S | OStr of S.
(* a sympy.Symbol, another sympy expression with its atoms, or an object that is not a sympy object *)
Inductive new := NSym of S | NExpr of seq S | NNum.

Definition is_old (o : old) (m : S) : bool := if o is OSym s then s == m else false.
Definition atoms (x : new) : seq S := match x with NSym s => [:: s] | NExpr l => l | NNum => [::] end.

(* the body of the loop, 523-535 *)
Definition subs_step (momenta : seq S) (p : old * new) : seq S :=
  let: (o, x) := p in
  match has (is_old o) momenta, x with
  | true, NSym s => [seq if is_old o m then s else m | m <- momenta]
  | _, NNum => [seq m <- momenta | ~~ is_old o m]
  | _, _ => if ~~ has (fun m => m \in atoms x) momenta then [seq m <- momenta | ~~ is_old o m] else momenta
  end.
Definition subs_momenta (momenta : seq S) (args : seq (old * new)) : seq S := foldl subs_step momenta args.

(* 514-517: the three forms of the arguments; a dictionary is a list without repeated keys *)
Inductive subs_args := Pair of old & new | Dict of seq (old * new) | List of seq (old * new).
Definition normalize_args (a : subs_args) : seq (old * new) :=
  match a with Pair o x => [:: (o, x)] | Dict l => l | List l => l end.

(* the symbols of a key x.subs(args), one pair after the other: the free symbols of the result are a subset of these *)
Definition free_step (free : seq S) (p : old * new) : seq S :=
  let o := match p.1 with OSym s => s | OStr s => s end in
  if o \in free then [seq s <- free | s != o] ++ atoms p.2 else free.
Definition free_subs (free : seq S) (args : seq (old * new)) : seq S := foldl free_step free args.
(* x.subs(args, simultaneous=True) *)
Definition free_simultaneous (free : seq S) (args : seq (old * new)) : seq S :=
  flatten [seq if [seq p.2 | p <- args & (match p.1 with OSym t => t | OStr t => t end) == s] is x :: _ then atoms x else [:: s]
          | s <- free].
End Subs.
