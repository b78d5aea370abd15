(* Model of parts of qsymm/kwant_continuum.py: gcd (320-336), the handling of the global
   sympy converter table in sympify (110-229), monomials (251-285) and
   _expression_monomials (288-315). *)
From mathcomp Require Import all_ssreflect all_algebra.
From Verif Require Import Prelude.

Set Implicit Arguments.
Unset Strict Implicit.
Unset Printing Implicit Defensive.
Import GRing.Theory Num.Theory.
Local Open Scope ring_scope.

(* ---- gcd ---- *)
(* Python's b % a for integers: the sign of the result is that of a *)
Definition pymod (b a : int) : int := if 0 <= a then modz b a else - modz (- b) (- a).

(* while a: a, b = b % a, a   (331-332); None if the fuel does not suffice *)
Fixpoint gcd_inner (fuel : nat) (a b : int) : option int :=
  if a == 0 then Some b
  else if fuel is f.+1 then gcd_inner f (pymod b a) a else None.

(* the outer loop (326-334); the list is kept reversed, its head is L[-1] *)
Fixpoint gcd_outer (fuel : nat) (b : int) (L : seq int) : option int :=
  if L is a :: L' then
    if gcd_inner fuel a b is Some b' then gcd_outer fuel b' L' else None
  else Some b.

(* gcd of args: b is unbound if there are no arguments *)
Definition gcd (fuel : nat) (args : seq int) : option (res int) :=
  match rev args with
  | [::] => Some (Err NameError)
  | [:: x] => Some (Ok x)
  | b :: L => omap (fun b => Ok `|b|) (gcd_outer fuel b L)
  end.

(* ---- the converter table in sympify ---- *)
Section Converter.
Variables (K : eqType) (V : Type) (klist : K).
(* sympy.core.sympify.converter; entries are callables, never None *)
Definition table := K -> option V.
Definition upd (t : table) (v : option V) : table := fun k => if k == klist then v else t k.

(* the statements of the try block: stored_value = converter.pop(list, None), converter[list] = new,
   and the three statements that follow, which do not touch the table but may raise *)
Record local := Local { ltable : table; stored : option V }.
Definition try_step (new : V) (i : nat) (s : local) : local :=
  match i with
  | 0 => Local (upd (ltable s) None) (ltable s klist)
  | 1 => Local (upd (ltable s) (Some new)) (stored s)
  | _ => s
  end.
(* finally: restore the stored value, or delete the entry, which raises KeyError if it is absent *)
Definition finally (s : local) : table * bool :=
  match stored s with
  | Some v => (upd (ltable s) (Some v), false)
  | None => (upd (ltable s) None, if ltable s klist is Some _ then false else true)
  end.
(* the block with an exception raised before statement r (none if r is None);
   the outcome is true if an exception leaves it *)
Definition try_block (new : V) (r : option nat) (t : table) : table * bool :=
  let s := foldl (fun s i => try_step new i s) (Local t None) (iota 0 (if r is Some r then minn r 5 else 5)) in
  let: (t', e) := finally s in (t', e || (if r is Some r then (r < 5)%N else false)).

(* An argument of sympify: a sympy object, for which the call may raise in atoms or subs; or any other object,
   with the values of locals (a numpy array, whose conversion may raise, or again an argument) *)
Inductive arg :=
| Basic of bool
| Plain (keys_ok : bool) (locals : seq (bool + arg)) (r : option nat).

Section Sympify.
Variable new : V.
(* locals = {k: ... for k, v in locals.items()}, 203-204 *)
Definition values (sympify : arg -> table -> table * bool) :=
  fix values (l : seq (bool + arg)) (t : table) : table * bool :=
    match l with
    | [::] => (t, false)
    | inl e :: l' => if e then (t, true) else values l' t
    | inr b :: l' => let: (t', e) := sympify b t in if e then (t', true) else values l' t'
    end.
Fixpoint sympify (a : arg) (t : table) {struct a} : table * bool :=
  match a with
  | Basic e => (t, e)
  | Plain keys_ok locals r =>
    if ~~ keys_ok then (t, true) (* ValueError *)
    else let: (t', e) := values sympify locals t in if e then (t', true) else try_block new r t'
  end.
End Sympify.

(* ---- two threads ---- *)
(* A thread executes statements 0 to 4 of the try block and then finally, statement 5; the shared table is read and
   written by each statement atomically. *)
Record thread := Thread { pc : nat; tstored : option V; tfailed : bool }.
Definition start : thread := Thread 0 None false.
Definition thread_step (new : V) (th : thread) (t : table) : thread * table :=
  if (pc th < 5)%N then
    let s := try_step new (pc th) (Local t (tstored th)) in (Thread (pc th).+1 (stored s) (tfailed th), ltable s)
  else if pc th == 5%N then
    let: (t', e) := finally (Local t (tstored th)) in (Thread 6 (tstored th) e, t')
  else (th, t).
(* a schedule says which of the two threads moves next *)
Fixpoint run_threads (new1 new2 : V) (sched : seq bool) (a b : thread) (t : table) : thread * thread * table :=
  match sched with
  | [::] => (a, b, t)
  | false :: s => let: (a', t') := thread_step new1 a t in run_threads new1 new2 s a' b t'
  | true :: s => let: (b', t') := thread_step new2 b t in run_threads new1 new2 s a b' t'
  end.
End Converter.

(* ---- monomials ---- *)
Section Monomials.
(* [factor] are the factors returned by as_ordered_factors, [base_of] the first component of as_base_exp,
   [mul_key] the canonical product sympy.Mul of the key used as dictionary key.  The expression is given as the terms of its
   expansion.  A coefficient is kept as a list of products, to be summed. *)
Variables (factor : Type) (B : eqType) (base_of : factor -> B) (Key : eqType) (mul_key : seq factor -> Key).
Definition coeff := seq (seq factor).

(* output[key] += val of a defaultdict(0) *)
Fixpoint add_to A (plus : A -> A -> A) (output : seq (Key * A)) (k : Key) (v : A) : seq (Key * A) :=
  match output with
  | [::] => [:: (k, v)]
  | (k', v') :: o => if k' == k then (k', plus v' v) :: o else (k', v') :: add_to plus o k v
  end.

Definition expression_monomials (terms : seq (seq factor)) (gens : seq B) : seq (Key * coeff) :=
  foldl (fun output summand =>
    let key := [seq f <- summand | base_of f \in gens] in
    let val := [seq f <- summand | base_of f \notin gens] in
    add_to cat output (mul_key key) [:: val]) [::] terms.

(* a matrix of expressions: output[key] is a matrix, zero where nothing was added *)
Definition add_entry n1 n2 (i : 'I_n1) (j : 'I_n2) (v : coeff) : 'I_n1 -> 'I_n2 -> coeff :=
  fun i' j' => if (i' == i) && (j' == j) then v else [::].
Definition plus_mx n1 n2 (a b : 'I_n1 -> 'I_n2 -> coeff) : 'I_n1 -> 'I_n2 -> coeff := fun i j => a i j ++ b i j.
Definition matrix_monomials n1 n2 (expr : 'I_n1 -> 'I_n2 -> seq (seq factor)) (gens : seq B)
    : seq (Key * ('I_n1 -> 'I_n2 -> coeff)) :=
  foldl (fun output ij =>
    foldl (fun output kv => add_to (@plus_mx n1 n2) output kv.1 (add_entry ij.1 ij.2 kv.2))
      output (expression_monomials (expr ij.1 ij.2) gens))
    [::] [seq (i, j) | i <- enum 'I_n1, j <- enum 'I_n2].
End Monomials.
