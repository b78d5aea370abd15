(* Human readable names of group elements: qsymm/groups.py, pretty_print_pge (860-1006), pretty_print_cgg (1009-1073),
   rotation_to_angle (1076-1092), _round_axis (1095-1101).

   What is modelled is the content of the name (which kind of element, which angle and axis), and which inputs raise; the layout of
   the strings, including LaTeX, is not.  Arithmetic is exact: isclose and allclose are equalities.  [rnd] is np.round(., 2). *)
From mathcomp Require Import all_ssreflect all_algebra.
From mathcomp Require Import complex.
From Verif Require Import Prelude LMatrices PGE Spin Factories.
Set Implicit Arguments.
Unset Strict Implicit.
Unset Printing Implicit Defensive.
Import Order.TTheory GRing.Theory Num.Theory.
Local Open Scope ring_scope.

Section Printing.
Variable F : rcfType.
(* np.arctan2 *)
Variable atan2 : F -> F -> F.
(* la.eigh: eigenvalues in ascending order and eigenvectors *)
Variable eigh : forall d, 'M[F]_d -> seq (F * 'rV[F]_d).
Variable rnd : F -> F.

(* 1j * trace(L @ R) for L in L_matrices(), L = 1j * list1; the definition of L_matrices is in Spin.v *)
Definition axis_of (R : 'M[F]_3) : 'rV[F]_3 := \row_i (- \tr (list1 F i *m R)).
Definition vsum d (n : 'rV[F]_d) : F := \sum_i n 0 i.

(* rotation_to_angle, 1076-1092.  The axis is None if it was divided by sign(0) = 0, that is, contains nan.
   The test in 1078 holds for real matrices. *)
Definition rotation_to_angle (R : 'M[F]_3) : res (option 'rV[F]_3 * F) :=
  let n := axis_of R in
  let absn := norm n * Num.sg (vsum n) in
  if absn == 0 then
    let: (val, v) := last (0, 0) (eigh R) in
    if val != 1 then Err AssertionError
    else Ok (if Num.sg (vsum v) == 0 then None else Some ((Num.sg (vsum v))^-1 *: v), atan2 absn (\tr R - 1))
  else Ok (Some (absn^-1 *: n), atan2 absn (\tr R - 1)).

(* product([-1, 0, 1], repeat=d) *)
Fixpoint signs (d : nat) : seq (seq int) :=
  if d is d'.+1 then [seq x :: v | x <- [:: -1; 0; 1], v <- signs d'] else [:: [::]].
Definition int_vec d (v : seq int) : 'rV[F]_d := \row_i (nth 0 v i)%:~R.
Definition vdot d (u v : 'rV[F]_d) : F := \sum_i u 0 i * v 0 i.

(* _round_axis, 1095-1101 *)
Definition round_axis d (n : 'rV[F]_d) : 'rV[F]_d :=
  if [seq v <- signs d | (vdot (int_vec d v) n == norm (int_vec d v)) && (norm (int_vec d v) != 0)] is v :: _ then int_vec d v
  else map_mx rnd n.

(* rot_name *)
Inductive rot_name := NIdentity | NInversion | NRotation2 of F | NMirror d of option 'rV[F]_d
  | NRotation3 of F & option 'rV[F]_3 | NRotoinversion of F & option 'rV[F]_3.

Definition rot_name1 (R : 'M[F]_1) : res rot_name := Ok (if R 0 0 == 1 then NIdentity else NInversion).
Definition rot_name2 (R : 'M[F]_2) : res rot_name :=
  if \det R == 1 then
    let theta := atan2 (R 1 0) (R 0 0) in
    Ok (if theta == 0 then NIdentity else NRotation2 theta)
  else if [seq x.1 | x <- eigh R] == [:: -1; 1] then Ok (NMirror (Some (round_axis (head (0, 0) (eigh R)).2)))
  else Err AssertionError.
Variable pi : F.
Definition rot_name3 (R : 'M[F]_3) : res rot_name :=
  if \det R == 1 then
    do nt <- rotation_to_angle R;
    Ok (if nt.2 == 0 then NIdentity else NRotation3 nt.2 (omap (@round_axis 3) nt.1))
  else
    do nt <- rotation_to_angle (- R);
    Ok (if nt.2 == 0 then NInversion
        else if nt.2 == pi then NMirror (omap (@round_axis 3) nt.1)
        else NRotoinversion nt.2 (omap (@round_axis 3) nt.1)).

(* 931-985: in other dimensions rot_name is not assigned, and its use raises UnboundLocalError, a NameError *)
Definition pge_rot_name d : 'M[F]_d -> res rot_name :=
  match d with
  | 1 => rot_name1
  | 2 => rot_name2
  | 3 => rot_name3
  | _ => fun _ => Err NameError
  end.

(* 995-1005: the short name *)
Inductive az_name := AT | AP | AC | ANone.
Definition az_of (conj anti : bool) : az_name :=
  match conj, anti with true, false => AT | true, true => AP | false, true => AC | false, false => ANone end.
(* the identity is left out if there is an az_name; the two parts of the name *)
Definition short_name (r : rot_name) (a : az_name) : option rot_name * az_name :=
  match r, a with NIdentity, ANone => (Some r, a) | NIdentity, _ => (None, a) | _, _ => (Some r, a) end.
Definition pretty_print_pge d (R : 'M[F]_d) (conj anti : bool) : res (option rot_name * az_name) :=
  do r <- pge_rot_name R;
  Ok (short_name r (az_of conj anti)).

(* pretty_print_cgg, 1009-1073.  R is Hermitian and antisymmetric, hence R = i K with K real antisymmetric; K is given here, and
   trace(l @ R) = - trace(list1 @ K).  The conserved quantity L is only tested for None and zero.
   L_name is not assigned when there is no L: UnboundLocalError. *)
Inductive cgg_rot := CNone | CRot2 | CRot3 of 'rV[F]_3.
Definition cgg_axis (K : 'M[F]_3) : 'rV[F]_3 :=
  let n := round_axis (normalize (\row_i (- \tr (list1 F i *m K)))) in round_axis n.
Definition cgg_rot_name d (K : 'M[F]_d) : cgg_rot :=
  match d return 'M[F]_d -> cgg_rot with
  | 3 => fun K => CRot3 (cgg_axis K)
  | 2 => fun _ => CRot2
  | _ => fun _ => CNone
  end K.
Definition pretty_print_cgg d n (K : option 'M[F]_d) (L : option 'M[F[i]]_n) : res cgg_rot :=
  let rot := if K is Some K then if K == 0 then CNone else cgg_rot_name K else CNone in
  if L is Some L then if L == 0 then Err NameError else Ok rot else Err NameError.
End Printing.
