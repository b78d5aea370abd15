(* Model of the factory functions of qsymm/groups.py: identity (303-323), time_reversal
   (326-354), particle_hole (357-373), chiral (376-392), inversion (395-411), rotation
   (414-464), mirror (467-509), square (669-719), cubic (722-770), hexagonal (773-855).

   Angles are measured in turns; [cs] and [sn] are the cosine and sine of 2 pi times their
   argument.  A spin representation is the function that maps an angle and an axis to the
   matrix spin_rotation(2 pi angle axis, spin).  The exponential of a three-dimensional
   rotation, spin_rotation(n, L_matrices(3, 1)), is replaced by its closed form.
   Arithmetic is exact; the recasting of R to integers (_make_int) is the identity. *)
From mathcomp Require Import all_ssreflect all_algebra.
From mathcomp Require Import complex.
From Verif Require Import Prelude PySet GroupGen PGE Spin.

Set Implicit Arguments.
Unset Strict Implicit.
Unset Printing Implicit Defensive.
Import GRing.Theory Num.Theory.
Local Open Scope ring_scope.
Local Open Scope complex_scope.

Section Factories.
Variables (F : rcfType) (n : nat).
Local Notation C := F[i].
Local Notation pge := (pge F).
Definition spin_rep := F -> 'rV[F]_3 -> 'M[C]_n.+1.

Definition identity d (shape : bool) : pge d n := Pge 1%:M false false (if shape then Some 1%:M else None) false.
Definition inversion d (U : option 'M[C]_n.+1) : pge d n := Pge (- 1%:M) false false U false.
Definition particle_hole d (U : option 'M[C]_n.+1) : pge d n := Pge 1%:M true true U false.
Definition chiral d (U : option 'M[C]_n.+1) : pge d n := Pge 1%:M false true U false.

(* the choice between U and spin that rotation, mirror and time_reversal share *)
Definition U_or_spin (U : option 'M[C]_n.+1) (spin : option spin_rep) (angle : F) (axis : 'rV[F]_3)
    : res (option 'M[C]_n.+1) :=
  match U, spin with
  | Some _, Some _ => Err ValueError
  | _, Some s => Ok (Some (s angle axis))
  | _, None => Ok U
  end.

(* np.array([x, y, z]) *)
Definition vec3 (x y z : F) : 'rV[F]_3 := \row_i nth 0 [:: x; y; z] i.

Definition time_reversal d (U : option 'M[C]_n.+1) (spin : option spin_rep) : res (pge d n) :=
  do U <- U_or_spin U spin 2%:R^-1 (vec3 0 1 0);
  Ok (Pge 1%:M true false U false).

(* la.norm *)
Definition norm d (v : 'rV[F]_d) : F := Num.sqrt (\sum_i v 0 i ^+ 2).
Definition normalize d (v : 'rV[F]_d) : 'rV[F]_d := (norm v)^-1 *: v.

(* np.eye(d) - 2 * np.outer(axis, axis), 502 *)
Definition reflection d (u : 'rV[F]_d) : 'M[F]_d := 1%:M - 2%:R *: (u^T *m u).
(* np.append(axis, 0) for two components *)
Definition spin_axis d (u : 'rV[F]_d) : 'rV[F]_3 := \row_i (if insub (i : nat) is Some j then u 0 j else 0).

Definition mirror d (axis : 'rV[F]_d) (U : option 'M[C]_n.+1) (spin : option spin_rep) : res (pge d n) :=
  let axis := normalize axis in
  do U <- U_or_spin U spin 2%:R^-1 (spin_axis axis);
  Ok (Pge (reflection axis) false false U false).

Variables (cs sn : F -> F).

Definition rotation_2d (angle : F) (U : option 'M[C]_n.+1) (spin : option spin_rep) : res (pge 2 n) :=
  do U <- U_or_spin U spin angle (vec3 0 0 1);
  Ok (Pge (rotation2 (cs angle) (sn angle)) false false U false).

(* the matrix of the vector product with u: -i u.L for L = L_matrices(3, 1) *)
Definition cross (u : 'rV[F]_3) : 'M[F]_3 :=
  \matrix_(i, j) nth 0 (nth [::] [:: [:: 0; - u 0 2; u 0 1]; [:: u 0 2; 0; - u 0 0]; [:: - u 0 1; u 0 0; 0]] i) j.
(* exp(theta K) for K = cross u, |u| = 1 *)
Definition rotation3 (c s : F) (u : 'rV[F]_3) : 'M[F]_3 :=
  1%:M + s *: cross u + (1 - c) *: (cross u *m cross u).

Definition rotation_3d (angle : F) (axis : 'rV[F]_3) (inversion : bool) (U : option 'M[C]_n.+1) (spin : option spin_rep)
    : res (pge 3 n) :=
  let u := normalize axis in
  do U <- U_or_spin U spin angle u;
  Ok (Pge ((if inversion then -1 else 1) *: rotation3 (cs angle) (sn angle) u) false false U false).

(* ---- predefined groups: the generators, as lists that are made into sets ---- *)
Definition add_tr_ph d (tr ph : bool) (spin : option spin_rep) (gens : seq (pge d n)) : res (seq (pge d n)) :=
  do gens <- (if tr then do T <- time_reversal d None spin; Ok (rcons gens T) else Ok gens);
  Ok (if ph then rcons gens (particle_hole d None) else gens).

Definition square_gens (tr ph : bool) (spin : option spin_rep) : res (seq (pge 2 n)) :=
  if ph && (if spin is Some _ then true else false) then Err ValueError
  else
    do Mx <- mirror (\row_i nth 0 [:: 1; 0] i) None spin;
    do C4 <- rotation_2d 4%:R^-1 None spin;
    add_tr_ph tr ph spin [:: Mx; C4].

Definition inversion_spin (spin : option spin_rep) : pge 3 n :=
  inversion 3 (if spin is Some s then Some (s 0 (vec3 0 0 0)) else None).

Definition cubic_gens (tr ph : bool) (spin : option spin_rep) : res (seq (pge 3 n)) :=
  if ph && (if spin is Some _ then true else false) then Err ValueError
  else
    do C4 <- rotation_3d 4%:R^-1 (vec3 1 0 0) false None spin;
    do C3 <- rotation_3d 3%:R^-1 (vec3 1 1 1) false None spin;
    add_tr_ph tr ph spin [:: inversion_spin spin; C4; C3].

(* the exact matrices of sympy, 820-823 and 834-838 *)
Definition sympy_R6_3 : 'M[F]_3 :=
  \matrix_(i, j) nth 0 (nth [::] [:: [:: 2%:R^-1; s3 F / 2%:R; 0]; [:: - (s3 F / 2%:R); 2%:R^-1; 0]; [:: 0; 0; 1]] i) j.
Definition U6 (sympy_R : bool) (spin : option spin_rep) : option 'M[C]_n.+1 :=
  if sympy_R then if spin is Some s then Some (s 6%:R^-1 (vec3 0 0 1)) else None else None.
(* there is no check of ph and spin *)
Definition hexagonal2_gens (tr ph sympy_R : bool) (spin : option spin_rep) : res (seq (pge 2 n)) :=
  do Mx <- mirror (\row_i nth 0 [:: 1; 0] i) None spin;
  do C6 <- (if sympy_R then Ok (Pge (sympy_R6 F) false false (U6 sympy_R spin) false) else rotation_2d 6%:R^-1 None spin);
  add_tr_ph tr ph spin [:: Mx; C6].
Definition hexagonal3_gens (tr ph sympy_R : bool) (spin : option spin_rep) : res (seq (pge 3 n)) :=
  do C2x <- rotation_3d 2%:R^-1 (vec3 1 0 0) false None spin;
  do C6 <- (if sympy_R then Ok (Pge sympy_R6_3 false false (U6 sympy_R spin) false)
            else rotation_3d 6%:R^-1 (vec3 0 0 1) false None spin);
  add_tr_ph tr ph spin [:: inversion_spin spin; C2x; C6].

(* a set of the generators, or generate_group of it; None if the fuel does not suffice *)
Variable ord : forall d, seq (pge d n) -> seq (pge d n).
Variable fuel : nat.
Definition finish_group d (generators : bool) (gens : res (seq (pge d n))) : option (res (seq (pge d n))) :=
  match gens with
  | Err e => Some (Err e)
  | Ok gens =>
    let set := set_of (@pge_eq F d n) gens in
    if generators then Some (Ok set)
    else omap Ok (generate_group (@pge_eq F d n) (@pge_mul F d n) (@ord d) fuel set)
  end.
Definition square tr ph generators spin := finish_group generators (square_gens tr ph spin).
Definition cubic tr ph generators spin := finish_group generators (cubic_gens tr ph spin).
(* any other dimension raises ValueError *)
Definition hexagonal2 tr ph generators sympy_R spin := finish_group generators (hexagonal2_gens tr ph sympy_R spin).
Definition hexagonal3 tr ph generators sympy_R spin := finish_group generators (hexagonal3_gens tr ph sympy_R spin).
End Factories.
