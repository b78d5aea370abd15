(* Symbolic keys of Models and BlochModels, and the operations that act on them:
   qsymm/model.py rotate_momenta 488-499, conj 559-565, BlochCoeff 55-112,
   BlochModel.rotate_momenta 833-842, BlochModel.conj 844-849, BlochModel.tomodel
   863-877; qsymm/groups.py PointGroupElement.apply 269-290 and
   ContinuousGroupGenerator.apply 553-575.

   A key of a Model is a product  prod_i k_i^(p_i) * exp(i h.k) * q  of powers of
   the momenta, one exponential and a product q of other symbols.  [P] is the type of
   such products, with multiplication [pmul] and [pc] for the substitution I -> -I.
   The phase factor exp(i x) is an abstract function [cis] on the ordered field. *)
From mathcomp Require Import all_ssreflect all_algebra.
From mathcomp Require Import complex.
From Verif Require Import Prelude ModelCore PGE.

Set Implicit Arguments.
Unset Strict Implicit.
Unset Printing Implicit Defensive.
Import GRing.Theory Num.Theory.
Local Open Scope ring_scope.
Local Open Scope complex_scope.

Section Keys.
Variables (F : rcfType) (d : nat) (P : eqType) (pone : P) (pmul : P -> P -> P) (pc : P -> P).
Local Notation C := F[i].

Definition pw := {ffun 'I_d -> nat}.
Definition pw0 : pw := [ffun=> 0%N].
Definition pwe (j : 'I_d) : pw := [ffun i => nat_of_bool (i == j)].
Definition pwadd (p q : pw) : pw := [ffun i => (p i + q i)%N].
Definition pwdec (p : pw) (j : 'I_d) : pw := [ffun i => (p i - (i == j))%N].

(* keys of a Model *)
Definition key := (pw * 'rV[F]_d * P)%type.
Definition kpow (k : key) : pw := k.1.1.
Definition khop (k : key) : 'rV[F]_d := k.1.2.
Definition kpar (k : key) : P := k.2.
Definition kone : key := (pw0, 0, pone).
Definition kmul (a b : key) : key := (pwadd (kpow a) (kpow b), khop a + khop b, pmul (kpar a) (kpar b)).
(* key.subs(I, -I), model.py:563 *)
Definition kconj (k : key) : key := (kpow k, - khop k, pc (kpar k)).

(* expansion of a polynomial in the momenta as a list of (number, powers) *)
Definition lmul (l1 l2 : seq (C * pw)) : seq (C * pw) :=
  [seq (x.1 * y.1, pwadd x.2 y.2) | x <- l1, y <- l2].
Definition lpow (l : seq (C * pw)) (n : nat) : seq (C * pw) := iter n (lmul l) [:: (1, pw0)].
(* (R k)_i *)
Definition lin (R : 'M[F]_d) (i : 'I_d) : seq (C * pw) :=
  [seq ((R i j)%:C, pwe j) | j <- enum 'I_d].
Definition rotpoly (R : 'M[F]_d) (p : pw) : seq (C * pw) :=
  foldr (fun i acc => lmul (lpow (lin R i) (p i)) acc) [:: (1, pw0)] (enum 'I_d).

(* model.py:493-497: key.subs(k -> R k), expanded as the constructor does (252-262).
   Like terms are not merged in this list; the constructor adds them up. *)
Definition krot (R : 'M[F]_d) (k : key) : seq (C * key) :=
  [seq (x.1, (x.2, khop k *m R, kpar k)) | x <- rotpoly R (kpow k)].

(* groups.py:568-570: sum_ij d key/d k_i * R_ij * k_j *)
Definition kder (R : 'M[C]_d) (k : key) : seq (C * key) :=
  flatten [seq [:: ((kpow k i)%:R * R i j, (pwadd (pwdec (kpow k) i) (pwe j), khop k, kpar k));
                   ('i * (khop k 0 i)%:C * R i j, (pwadd (kpow k) (pwe j), khop k, kpar k))]
           | i <- enum 'I_d, j <- enum 'I_d].

(* keys of a BlochModel: (hop, coeff), model.py:55-112 *)
Definition bkey := ('rV[F]_d * P)%type.
Definition bone : bkey := (0, pone).
Definition bmul (a b : bkey) : bkey := (a.1 + b.1, pmul a.2 b.2).
Definition bconj (a : bkey) : bkey := (- a.1, pc a.2).
Definition brot (R : 'M[F]_d) (a : bkey) : bkey := (a.1 *m R, a.2).
(* BlochCoeff.tosympy 106-112 *)
Definition tosympy (a : bkey) : key := (pw0, a.1, a.2).

Section Models.
Variables (Mom : eqType) (V : lmodType C).

(* Model.rotate_momenta *)
Definition rotate_momenta (R : 'M[F]_d) (m : model [eqType of key] Mom V) :=
  transform_symbolic (kone : [eqType of key]) (krot R) m.

(* BlochModel.rotate_momenta: a dict comprehension, later entries win *)
Definition bloch_rotate (R : 'M[F]_d) (m : model [eqType of bkey] Mom V) : model [eqType of bkey] Mom V :=
  Mk (dict_of (bone : [eqType of bkey])
       [seq (Sym (brot R (den (bone : [eqType of bkey]) kv.1)), kv.2) | kv <- mdata m])
     (mkeep m) (mmom m).

(* BlochModel.tomodel *)
Definition tomodel (m : model [eqType of bkey] Mom V) : model [eqType of key] Mom V :=
  construct (kone : [eqType of key]) (fun pk => tosympy (den (bone : [eqType of bkey]) pk)) (mdata m)
    [seq tosympy k | k <- mkeep m] (mmom m).
End Models.

Section Apply.
Variables (Mom : eqType) (n : nat).
Local Notation mat := [lmodType C of 'M[C]_n.+1].
Local Notation kmodel := (model [eqType of key] Mom mat).
Local Notation bmodel := (model [eqType of bkey] Mom mat).

(* U @ result @ U.T.conj(), groups.py:287-288 *)
Definition conjugate_by (K : eqType) (oU : option 'M[C]_n.+1) (m : model K Mom mat) : model K Mom mat :=
  if oU is Some U then
    mmap (W := mat) (fun A => A *m dagger U) (mmap (W := mat) (fun A => U *m A) m)
  else m.

(* PointGroupElement.apply on a Model, groups.py:269-290 *)
Definition pge_apply (g : pge F d n) (m : kmodel) : res kmodel :=
  let R := if pconj g then - invmx (pR g) else invmx (pR g) in
  do r <- rotate_momenta R m;
  do r <- (if pconj g then mconj (kone : [eqType of key]) kconj (@mxconj F n.+1 n.+1) r else Ok r);
  let r := if panti g then mneg r else r in
  Ok (conjugate_by (pU g) r).

(* the same on a BlochModel *)
Definition pge_apply_bloch (g : pge F d n) (m : bmodel) : res bmodel :=
  let R := if pconj g then - invmx (pR g) else invmx (pR g) in
  let r := bloch_rotate R m in
  do r <- (if pconj g then mconj (bone : [eqType of bkey]) bconj (@mxconj F n.+1 n.+1) r else Ok r);
  let r := if panti g then mneg r else r in
  Ok (conjugate_by (pU g) r).

(* ContinuousGroupGenerator.apply, groups.py:553-575.  R has complex entries;
   U = None and U = 0 behave alike, as do R = None and R = 0. *)
Definition cgg_apply (R : option 'M[C]_d) (U : option 'M[C]_n.+1) (m : kmodel) : res kmodel :=
  let Rz := if R is Some R' then if R' == 0 then None else Some R' else None in
  let Uz := if U is Some U' then if U' == 0 then None else Some U' else None in
  let result := zeros_like mat m in
  do result <- (if Rz is Some R' then
      do t <- transform_symbolic (kone : [eqType of key]) (kder R') m;
      madd (kone : [eqType of key]) result (mscale 'i t)
    else Ok result);
  if Uz is Some U' then
    do c <- madd (kone : [eqType of key]) (mmap (W := mat) (fun A => A *m ('i *: U')) m)
             (mmap (W := mat) (fun A => (- 'i *: U') *m A) m);
    madd (kone : [eqType of key]) result c
  else Ok result.
End Apply.
End Keys.
