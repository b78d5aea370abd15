(* The representations of the spatial part R of a PointGroupElement (integer,
   floating point, sympy), their comparison, hash and order:
   qsymm/groups.py:56-79, 140-160, 189-231. *)
From mathcomp Require Import all_ssreflect all_algebra.
From Verif Require Import Prelude Tolerance.

Set Implicit Arguments.
Unset Strict Implicit.
Unset Printing Implicit Defensive.
Import Order.Theory GRing.Theory Num.Theory.
Local Open Scope ring_scope.

Section Rep.
(* [E]: sympy expressions compared structurally, [fl]: conversion to float,
   [rnd]: np.round followed by conversion to int *)
Variables (F : realFieldType) (E : eqType) (fl : E -> F) (rnd : F -> int) (rtol atol : F) (n : nat).

(* ta.ndarray_int, ta.ndarray_float, sympy.ImmutableMatrix *)
Inductive rep := RInt of 'M[int]_n | RFlt of 'M[F]_n | RSym of 'M[E]_n.

(* np.array(R).astype(float) *)
Definition as_float (r : rep) : 'M[F]_n :=
  match r with
  | RInt A => map_mx intr A
  | RFlt A => A
  | RSym A => map_mx fl A
  end.

Local Notation close := (aclose (fun x : F => `|x|) rtol atol).

(* _make_int, groups.py:70-79 *)
Definition make_int (r : rep) : rep :=
  let Rf := as_float r in
  let Ri := map_mx rnd Rf in
  if close Rf (map_mx intr Ri) then RInt Ri else r.

(* __init__, groups.py:140-156: integer arrays are kept, all others go through _make_int *)
Definition init_R (r : rep) : rep := if r is RInt _ then r else make_int r.

(* _eq, groups.py:56-67 *)
Definition rep_eq (r1 r2 : rep) : bool :=
  match r1, r2 with
  | RInt A, RInt B => A == B
  | RSym A, RSym B => A == B
  | _, _ => close (as_float r1) (as_float r2)
  end.

(* an element without its unitary part *)
Record elt := Elt { eR : rep; econj : bool; eanti : bool }.

(* __eq__ with _strict_eq=False, 189-206 *)
Definition elt_eq (g h : elt) : bool :=
  rep_eq (eR g) (eR h) && ((econj g, eanti g) == (econj h, eanti h)).

(* __hash__, 224-230: the tuple that is hashed; None stands for the tuple (c, a)
   used for floating point R *)
Definition hash_key (g : elt) : option rep * (bool * bool) :=
  (if eR g is RFlt _ then None else Some (eR g), (econj g, eanti g)).

(* __lt__, 208-222.  Tuples of bools are compared lexicographically with
   False < True; tinyarray compares arrays of equal shape lexicographically. *)
Fixpoint lexlt (s t : seq F) : bool :=
  match s, t with
  | x :: s', y :: t' => (x < y) || ((x == y) && lexlt s' t')
  | _, _ => false
  end.
Definition entries (A : 'M[F]_n) : seq F := [seq A i j | i <- enum 'I_n, j <- enum 'I_n].
Definition flag_lt (f1 f2 : bool * bool) : bool :=
  (~~ f1.1 && f2.1) || ((f1.1 == f2.1) && (~~ f1.2 && f2.2)).
Definition elt_lt (g h : elt) : bool :=
  let Rs := as_float (eR g) in
  let Ro := as_float (eR h) in
  let fs := (econj g, eanti g) in
  let fo := (econj h, eanti h) in
  if fs != fo then flag_lt fs fo
  else if (Rs == 1%:M) (+) (Ro == 1%:M) then Rs == 1%:M
  else lexlt (entries Rs) (entries Ro).
End Rep.
