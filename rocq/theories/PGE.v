(* Model of qsymm/groups.py: class PointGroupElement (95-299).

   Simplifications.  The spatial part is a matrix over an arbitrary real closed
   field [F], the unitary part a matrix over the complex numbers F[i]; the three
   storage formats of R (integer tinyarray, float tinyarray, sympy matrix) and the
   conversion _make_int (70-79) are representation changes that keep the value, see
   Representation.v for them.  Comparisons are exact here; see Tolerance.v for the
   comparison with tolerances.  Dimensions are part of the type, so products of
   elements of different size are not representable. *)
From mathcomp Require Import all_ssreflect all_algebra.
From mathcomp Require Import complex.

Set Implicit Arguments.
Unset Strict Implicit.
Unset Printing Implicit Defensive.
Import GRing.Theory Num.Theory.
Local Open Scope ring_scope.

Section PGE.
Variables (F : rcfType) (d n : nat).
Local Notation C := F[i].

(* groups.py:138, __slots__ = ('R', 'conjugate', 'antisymmetry', 'U', '_strict_eq') *)
Record pge := Pge {
  pR : 'M[F]_d;
  pconj : bool;
  panti : bool;
  pU : option 'M[C]_n.+1;
  pstrict : bool }.

(* numpy's U.conj(), U.T and U.T.conj() *)
Definition mxconj m1 m2 (A : 'M[C]_(m1, m2)) : 'M[C]_(m1, m2) := map_mx (@conjc F) A.
Definition dagger m1 m2 (A : 'M[C]_(m1, m2)) : 'M[C]_(m2, m1) := mxconj A^T.
Definition cj m1 m2 (c : bool) (A : 'M[C]_(m1, m2)) := if c then mxconj A else A.

(* groups.py:226-238, __mul__.  _mul (21-40) is the matrix product. *)
Definition pge_mul (g1 g2 : pge) : pge :=
  Pge (pR g1 *m pR g2) (pconj g1 (+) pconj g2) (panti g1 (+) panti g2)
      (if pU g1 is Some U1 then
         if pU g2 is Some U2 then
           Some (if pconj g1 then U1 *m mxconj U2 else U1 *m U2)
         else None
       else None)
      (pstrict g1 || pstrict g2).

(* groups.py:247-259, inv.  _inv (43-53) is the matrix inverse. *)
Definition pge_inv (g : pge) : pge :=
  Pge (invmx (pR g)) (pconj g) (panti g)
      (if pU g is Some U then Some (if pconj g then U^T else dagger U) else None)
      (pstrict g).

(* groups.py:291-299, identity *)
Definition pge_identity (g : pge) : pge :=
  Pge 1%:M false false (if pU g is Some _ then Some 1%:M else None) false.

(* groups.py:240-245, __pow__ *)
Definition pge_pow (g : pge) (k : int) : pge :=
  let h := match k with Posz _ => g | Negz _ => pge_inv g end in
  iter `|k| (fun result => pge_mul result h) (pge_identity g).

(* linalg.py:17-29, prop_to_id; returns (is proportional, factor) *)
Definition prop_to_id (A : 'M[C]_n.+1) : bool * C :=
  if A 0 0 == 0 then
    if A == 0 then (true, 0) else (false, 0)
  else if (A 0 0)^-1 *: A == 1%:M then (true, A 0 0) else (false, 0).

(* groups.py:187-201, __eq__ *)
Definition pge_eq (g h : pge) : bool :=
  let basic_eq := (pR g == pR h) && ((pconj g, panti g) == (pconj h, panti h)) in
  let U_eq :=
    if basic_eq && (pstrict g || pstrict h) then
      match pU g, pU h with
      | None, None => true
      | None, Some _ | Some _, None => false
      | Some _, Some _ =>
          if pU (pge_mul (pge_inv g) h) is Some V then
            let: (prop, coeff) := prop_to_id V in
            prop && (`|coeff| == 1)
          else false
      end
    else true in
  basic_eq && U_eq.

(* Specification predicates: invertible spatial part, unitary U. *)
Definition unitarymx m (U : 'M[C]_m) : Prop := U *m dagger U = 1%:M /\ dagger U *m U = 1%:M.
Definition pge_wf (g : pge) : Prop :=
  pR g \in unitmx /\ (if pU g is Some U then unitarymx U else True).

(* Same element: all mathematical data agree (the comparison mode flag
   _strict_eq is not part of the group element). *)
Definition pge_same (g h : pge) : Prop :=
  [/\ pR g = pR h, pconj g = pconj h, panti g = panti h & pU g = pU h].

End PGE.
