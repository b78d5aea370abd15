(* Model of qsymm/hamiltonian_generator.py: continuum_hamiltonian (15-81) and
   continuum_variables (186-237).  [d] is dim.  A momentum is its position in the list
   of momenta, [nmom] is the length of that list, [mom] the tuple kept by the Models.
   Powers are natural numbers. *)
From mathcomp Require Import all_ssreflect all_algebra.
From mathcomp Require Import complex.
From Verif Require Import Prelude ModelCore PGE Keys Linalg Family.

Set Implicit Arguments.
Unset Strict Implicit.
Unset Printing Implicit Defensive.
Import GRing.Theory.
Local Open Scope ring_scope.

(* an entry of all_powers: an integer or a list of integers *)
Inductive powers := UpTo of nat | Only of seq nat.
(* range(power + 1), lines 219-221 *)
Definition power_list (p : powers) : seq nat :=
  match p with UpTo n => iota 0 n.+1 | Only s => s end.

(* itertools.product of a list of lists *)
Fixpoint product (T : Type) (ls : seq (seq T)) : seq (seq T) :=
  if ls is l :: ls' then [seq x :: t | x <- l, t <- product ls'] else [:: [::]].

Section Continuum.
Variables (F : rcfType) (d n : nat) (P : eqType) (pone : P) (Mom : eqType) (mom : Mom).
Local Notation C := F[i].
Local Notation key := (key F d P).
Local Notation mat := [lmodType C of 'M[C]_n.+1].
Local Notation kmodel := (model [eqType of key] Mom mat).
Let ko : [eqType of key] := kone F d pone.

(* sympy.Mul of the powers of the momenta, 233-236 *)
Definition monomial (p : seq nat) : key := ([ffun i : 'I_d => nth 0%N p i], 0, pone).

(* 211-237 *)
Definition continuum_variables (total_power : nat) (all_powers : option (seq powers)) (nmom : nat) : res (seq key) :=
  let ap := if all_powers is Some ap then ap else nseq d (UpTo total_power) in
  if (size ap < d)%N || (nmom < d)%N then Err ValueError
  else
    let ap := [seq power_list p | p <- take d ap] in
    if d == 0%N then Ok [:: kone F d pone]
    else Ok [seq monomial p | p <- product ap & sumn p == total_power].

(* 59-61: an integer stands for all powers up to it *)
Definition degrees (total_power : nat + seq nat) : seq nat :=
  match total_power with inl n => iota 0 n.+1 | inr s => s end.

Section Hamiltonian.
Variables (Sy : Type) (sapply : Sy -> kmodel -> res kmodel) (discrete has_U : Sy -> bool).
Variable ns : forall N, seq 'rV[F]_N -> seq 'rV[F]_N.
(* make_basis_pretty with the given number of digits *)
Variable pretty : seq kmodel -> res (seq kmodel).

(* it.product(momentum_variables, basis), 71-73; [basis] is matrix_basis(N) here and mbasis in continuum_pairing *)
Definition degree_family (basis : seq 'M[C]_n.+1) (vars : seq key) : seq kmodel :=
  [seq Mk [:: (Sym (v : [eqType of key]), A : mat)] [::] mom | v <- vars, A <- basis].

(* the body of the loop, 68-79 and 163-175 *)
Definition degree_step (basis : seq 'M[C]_n.+1) (symmetries : seq Sy) all_powers nmom (prettify : bool) (degree : nat) : res (seq kmodel) :=
  do vars <- continuum_variables degree all_powers nmom;
  do family <- constrain_family ko sapply discrete has_U ns symmetries (degree_family basis vars);
  if prettify then
    do p <- pretty family;
    if size family == size p then Ok p else Err AssertionError
  else Ok family.

Definition all_degrees (basis : seq 'M[C]_n.+1) (symmetries : seq Sy) (total_power : nat + seq nat) all_powers nmom (prettify : bool) : res (seq kmodel) :=
  do fs <- mapM (degree_step basis symmetries all_powers nmom prettify) (degrees total_power);
  Ok (flatten fs).

(* 59-81; the size of the matrices is that of the first symmetry *)
Definition continuum_hamiltonian (symmetries : seq Sy) (total_power : nat + seq nat) all_powers nmom (prettify : bool) : res (seq kmodel) :=
  if symmetries is s :: _ then
    if ~~ has_U s then Err AttributeError
    else all_degrees (matrix_basis n.+1 false false false) symmetries total_power all_powers nmom prettify
  else Err IndexError.
End Hamiltonian.
End Continuum.
