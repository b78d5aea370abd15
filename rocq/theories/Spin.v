(* Model of spin_matrices (1122-1154) and L_matrices (1197-1237) of qsymm/groups.py, and of
   spin_rotation (1157-1194) about the z axis.  Square roots and arithmetic are exact. *)
From mathcomp Require Import all_ssreflect all_algebra.
From mathcomp Require Import complex.
From Verif Require Import Prelude PGE.

Set Implicit Arguments.
Unset Strict Implicit.
Unset Printing Implicit Defensive.
Import GRing.Theory Num.Theory.
Local Open Scope ring_scope.
Local Open Scope complex_scope.

Section Spin.
Variable F : rcfType.
Local Notation C := F[i].

(* np.round and int *)
Variables (rint trunc : F -> int).

(* d = np.round(2*s + 1); assert np.isclose(d, int(d)); d = int(d), 1142-1144.
   Negative d are not modelled. *)
Definition spin_dim (s : F) : res nat :=
  let d : F := (rint (2%:R * s + 1))%:~R in
  if (trunc d)%:~R == d then Ok `|trunc d|%N else Err AssertionError.

(* 1/2*np.sqrt((s + 1) * 2*i - i * (i + 1)), 1147; numpy returns nan for a negative
   argument, the square root of the model 0 *)
Definition spin_diag (s : F) (i : nat) : F :=
  2%:R^-1 * Num.sqrt ((s + 1) * 2%:R * i%:R - i%:R * (i%:R + 1)).

(* np.diag(f, k=1) and np.diag(f, k=-1) where f lists the values for i = 1, ..., d-1 *)
Definition diag_up n (f : nat -> C) : 'M[C]_n := \matrix_(i, j) if j == i.+1 :> nat then f i.+1 else 0.
Definition diag_down n (f : nat -> C) : 'M[C]_n := \matrix_(i, j) if i == j.+1 :> nat then f j.+1 else 0.

(* np.arange(d - 1, -d, -2) / 2, 1145 *)
Definition spin_z n : 'M[C]_n := \matrix_(i, j) if i == j then 2%:R^-1 * (n%:R - 1 - 2%:R * i%:R) else 0.
(* 1148-1149 *)
Definition spin_x (s : F) n : 'M[C]_n :=
  let diag i := (spin_diag s i)%:C in diag_up n diag + diag_down n diag.
Definition spin_y (s : F) n : 'M[C]_n :=
  let diag i := (spin_diag s i)%:C in (- 'i) *: diag_up n diag + 'i *: diag_down n diag.

(* L_matrices.  np.array([...]) *)
Definition rows_mx n (rows : seq (seq F)) : 'M[C]_n := \matrix_(i, j) (nth 0 (nth [::] rows i) j)%:C.

(* d = 2, l = 1, 1207-1209 *)
Definition L2 : 'M[C]_2 := 'i *: rows_mx 2 [:: [:: 0; -1]; [:: 1; 0]].
(* d = 3, l = 1, 1210-1219 *)
Definition L1 (a : 'I_3) : 'M[C]_3 :=
  'i *: rows_mx 3 (nth [::] [::
   [:: [:: 0; 0; 0]; [:: 0; 0; -1]; [:: 0; 1; 0]];
   [:: [:: 0; 0; 1]; [:: 0; 0; 0]; [:: -1; 0; 0]];
   [:: [:: 0; -1; 0]; [:: 1; 0; 0]; [:: 0; 0; 0]]] a).
(* d = 3, l = 2, 1220-1235 *)
Definition LD (a : 'I_3) : 'M[C]_5 :=
  let s3 := Num.sqrt (3%:R : F) in
  'i *: rows_mx 5 (nth [::] [::
   [:: [:: 0; 0; 0; -1; 0]; [:: 0; 0; 0; - s3; 0]; [:: 0; 0; 0; 0; 1]; [:: 1; s3; 0; 0; 0]; [:: 0; 0; -1; 0; 0]];
   [:: [:: 0; 0; 0; 0; -1]; [:: 0; 0; 0; 0; s3]; [:: 0; 0; 0; -1; 0]; [:: 0; 0; 1; 0; 0]; [:: 1; - s3; 0; 0; 0]];
   [:: [:: 0; 0; -2%:R; 0; 0]; [:: 0; 0; 0; 0; 0]; [:: 2%:R; 0; 0; 0; 0]; [:: 0; 0; 0; 0; 1]; [:: 0; 0; 0; -1; 0]]] a).

(* spin_rotation(theta * [0, 0, 1], s) = expm(-i theta S_z), 1184: the exponential of a
   diagonal matrix is diagonal.  [h] is exp(-i theta / 2), and exp(-i theta (m / 2)) its
   m-th power. *)
Definition spin_rotation_z n (h : C) : 'M[C]_n :=
  \matrix_(i, j) if i == j then h ^ (n%:Z - 1 - 2 * i%:Z) else 0.

(* rotation(angle) in the plane, 448-449; c and s are the cosine and sine *)
Definition rotation2 (c s : F) : 'M[F]_2 :=
  \matrix_(i, j) if i == j then c else if (i == 0) && (j == 1) then - s else s.

(* the sixfold rotation of hexagonal, 816-827: rotation(1/6, spin=spin), or the sympy
   matrix with U6 = spin_rotation(np.pi/3 * [0, 0, 1], spin), 812 *)
Definition s3 : F := Num.sqrt 3%:R.
Definition h6 : C := (s3 / 2%:R)%:C - 'i * (2%:R^-1)%:C.
Definition sympy_R6 : 'M[F]_2 :=
  \matrix_(i, j) if i == j then 2%:R^-1 else if (i == 0) && (j == 1) then s3 / 2%:R else - (s3 / 2%:R).
Definition hexagonal_C6 (sympy_R : bool) n : pge F 2 n :=
  Pge (if sympy_R then sympy_R6 else rotation2 2%:R^-1 (s3 / 2%:R)) false false
      (Some (spin_rotation_z n.+1 h6)) false.
End Spin.
