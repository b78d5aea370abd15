(* Comparisons with tolerances.  Real numbers stand for floating point numbers.
   [nrm] is the absolute value of an array entry: `|x| for real arrays, the
   modulus for complex arrays. *)
From mathcomp Require Import all_ssreflect all_algebra.
From Verif Require Import Prelude ModelCore.

Set Implicit Arguments.
Unset Strict Implicit.
Unset Printing Implicit Defensive.
Import Order.Theory GRing.Theory Num.Theory.
Local Open Scope ring_scope.

(* a norm on array entries *)
Record is_norm (F : realFieldType) (C : ringType) (nrm : C -> F) : Prop := IsNorm {
  nrm_ge0 : forall x, 0 <= nrm x;
  nrm0 : nrm 0 = 0;
  nrm0P : forall x, nrm x = 0 -> x = 0;
  nrmN : forall x, nrm (- x) = nrm x;
  nrmD : forall x y, nrm (x + y) <= nrm x + nrm y;
  nrmM : forall x y, nrm (x * y) = nrm x * nrm y }.

Section Arrays.
Variables (F : realFieldType) (C : ringType) (nrm : C -> F) (m n : nat).
Implicit Types (A B : 'M[C]_(m, n)) (rtol atol : F).

(* np.max(np.abs(a)); 0 for an empty array *)
Definition amax A : F := \big[Num.max/0]_(i < m) \big[Num.max/0]_(j < n) nrm (A i j).

(* linalg.allclose, linalg.py:32-58, for two arrays of the same shape.  An empty
   array (49-50) satisfies the comparison trivially.  For sparse arrays only the
   stored entries of the difference are compared (53-54); the other entries are 0
   and satisfy the bound.  NaN is not modelled. *)
Definition aclose rtol atol A B : bool :=
  [forall i, forall j, nrm (A i j - B i j) <= atol + rtol * Num.max (amax A) (amax B)].

(* numpy.allclose(a, b): the relative tolerance is elementwise, relative to b *)
Definition np_isclose rtol atol (a b : C) : bool := nrm (a - b) <= atol + rtol * nrm b.
Definition np_allclose rtol atol A B : bool :=
  [forall i, forall j, np_isclose rtol atol (A i j) (B i j)].
End Arrays.

(* prop_to_id, linalg.py:17-29; the default tolerances of numpy are 1e-5 and 1e-8 *)
Definition prop_to_id (F : realFieldType) (C : unitRingType) (nrm : C -> F) (rtol atol : F) n
    (A : 'M[C]_n.+1) : bool * C :=
  if np_isclose nrm rtol atol (A 0 0) 0 then
    (np_allclose nrm rtol atol A 0, 0)
  else if np_allclose nrm rtol atol (\matrix_(i, j) (A i j / A 0 0)) 1%:M then (true, A 0 0)
  else (false, 0).

(* ---- Model.allclose and Model.__eq__, model.py:299-302, 697-706 ---- *)
Section ModelEq.
Variables (F : realFieldType) (C : ringType) (nrm : C -> F) (m n : nat).
Variables (K : eqType) (kone : K) (rtol atol : F).
Local Notation V := [zmodType of 'M[C]_(m, n)].
Local Notation dict := (dict K V).

(* self.allclose({}) and self.allclose(0), 699-703 *)
Definition is_close_to_zero (a : dict) : bool :=
  if nilp a then true else all (fun kv => aclose nrm rtol atol kv.2 (0 : 'M[C]_(m, n))) a.

(* `other == {}` in line 699 calls other.__eq__({}), hence other.allclose({}) *)
Definition model_eq (a b : dict) : bool :=
  if is_close_to_zero b then is_close_to_zero a
  else all (fun k => aclose nrm rtol atol (dget kone a k : 'M[C]_(m, n)) (dget kone b k))
           ([seq kv.1 | kv <- a] ++ [seq kv.1 | kv <- b]).
End ModelEq.

(* ---- eliminate_zeros, model.py:708-725 and around, 585-592 ---- *)
Section Eliminate.
Variables (F : realFieldType) (V : Type) (fnorm : V -> F) (K : Type).
(* max_norm and tol *)
Definition max_norm (d : seq (K * V)) : F := \big[Num.max/0]_(kv <- d) fnorm kv.2.
Definition elim_tol (rtol atol : F) (d : seq (K * V)) : F := Num.max atol (max_norm d * rtol).
Definition eliminate_zeros (rtol atol : F) (d : seq (K * V)) : seq (K * V) :=
  if d is [::] then [::] else [seq kv <- d | ~~ (fnorm kv.2 < elim_tol rtol atol d)].
End Eliminate.

(* around: [rnd] rounds one value; [zero] is np.allclose(val, 0) *)
Definition around (V K : Type) (rnd : V -> V) (zero : V -> bool) (d : seq (K * V)) : seq (K * V) :=
  pmap (fun kv => let v := rnd kv.2 in if zero v then None else Some (kv.1, v)) d.

(* ---- split_list, linalg.py:277-282 ---- *)
Section Split.
Variables (F : realFieldType) (C : ringType) (nrm : C -> F).
(* np.where(np.abs(np.diff(vals)) > tol/len(vals))[0] + 1 *)
Definition boundaries (tol : F) (vals : seq C) : seq nat :=
  [seq i.+1 | i <- iota 0 (size vals).-1 & nrm (vals`_i.+1 - vals`_i) > tol / (size vals)%:R].
Definition split_list (tol : F) (vals : seq C) : res (seq (nat * nat)) :=
  if vals is [::] then Err ZeroDivisionError
  else let b := boundaries tol vals in Ok (zip (0%N :: b) (rcons b (size vals))).
End Split.

(* ---- _inv_int, linalg.py:615-622, with exact determinant and inverse.
   ta.array(A, int) truncates every entry; `_A != A` detects non-integer input;
   [rnd] is np.round.  la.det and la.inv work in floating point in the code. ---- *)
Definition inv_int (n : nat) (rnd : rat -> int) (A : 'M[rat]_n) : res 'M[int]_n :=
  if n == 0%N then Ok 0
  else if ~~ [forall i, forall j, A i j \is a Qint] || (`|\det A| != 1) then Err ValueError
  else Ok (map_mx rnd (invmx A)).
