(* Families of Models: qsymm/linalg.py family_to_vectors (139-175) and
   qsymm/hamiltonian_generator.py check_symmetry (336-377), constrain_family (380-457),
   make_basis_pretty (460-490), remove_duplicates (493-517), subtract_family (520-561).
   The values of the Models are dense complex matrices. *)
From mathcomp Require Import all_ssreflect all_algebra.
From mathcomp Require Import complex.
From Verif Require Import Prelude ModelCore.

Set Implicit Arguments.
Unset Strict Implicit.
Unset Printing Implicit Defensive.
Import GRing.Theory Num.Theory.
Local Open Scope ring_scope.
Local Open Scope complex_scope.

(* a list of calls, the first exception wins *)
Fixpoint mapM A B (f : A -> res B) (s : seq A) : res (seq B) :=
  if s is x :: s' then do y <- f x; do ys <- mapM f s'; Ok (y :: ys) else Ok [::].

Section Family.
Variables (F : rcfType) (n1 n2 : nat) (K : eqType) (kone : K) (Mom : eqType).
Local Notation C := F[i].
Local Notation V := [lmodType C of 'M[C]_(n1, n2)].
Local Notation model := (model K Mom V).

(* M.reshape(-1); np.concatenate((M.real, M.imag)), linalg.py:157-159 *)
Definition matrix_to_vector (A : 'M[C]_(n1, n2)) : seq F :=
  [seq complex.Re (A i j) | i <- enum 'I_n1, j <- enum 'I_n2] ++
  [seq complex.Im (A i j) | i <- enum 'I_n1, j <- enum 'I_n2].

(* set().union of all keys, 161-165; the order of a Python set is arbitrary *)
Definition family_keys (family : seq model) : seq K :=
  undup (flatten [seq dkeys kone (mdata m) | m <- family]).

(* the vector of one member, 172-174 *)
Definition member_vector (keys : seq K) (m : model) : seq F :=
  flatten [seq matrix_to_vector (dget kone (mdata m) (Sym k)) | k <- keys].

(* linalg.py:161-175; the result is a list of rows *)
Definition family_to_vectors (family : seq model) (all_keys : option (seq K)) : res (seq (seq F)) :=
  let keys := if all_keys is Some ks then ks else family_keys family in
  if ~~ all (fun m => all (fun k => k \in keys) (dkeys kone (mdata m))) family then Err AssertionError
  else if nilp keys then Ok [seq [::] | _ <- family]
  else if nilp family then Err ValueError
  else Ok [seq member_vector keys m | m <- family].

(* vectors.T, as a list of rows with one entry for each member *)
Definition transpose N (vs : seq (seq F)) : seq 'rV[F]_N :=
  [seq \row_(j < N) (nth [::] vs j)`_t | t <- iota 0 (size (head [::] vs))].

(* Python's sum of a non-empty list of Models: 0 + m is a copy of m (model.py:341-342) *)
Definition psum (l : seq model) : res model :=
  if l is m :: l' then foldl (fun acc m' => do a <- acc; madd kone a m') (Ok (mcopy m)) l'
  else Err TypeError.

(* sum([val * family[i] for i, val in enumerate(vec)]); [vec] has one entry for
   each member *)
Definition combine (family : seq model) (vec : seq C) : res model :=
  psum [seq mscale cm.1 cm.2 | cm <- zip vec family].
Definition rowseq N (v : 'rV[F]_N) : seq C := [seq (v 0 j)%:C | j <- enum 'I_N].

(* ---- constrain_family ----
   [sapply] is symmetry.apply, [discrete] is isinstance(symmetry, PointGroupElement),
   [has_U] is symmetry.U is not None; [ns] is nullspace. *)
Section Constrain.
Variables (Sy : Type) (sapply : Sy -> model -> res model) (discrete has_U : Sy -> bool).
Variable ns : forall N, seq 'rV[F]_N -> seq 'rV[F]_N.

(* one block of the constraint matrix, hamiltonian_generator.py:430-439 *)
Definition constraint_block (family : seq model) (vars : seq K) (sr : Sy * seq model) : res (seq 'rV[F]_(size family)) :=
  do v <- family_to_vectors sr.2 (Some vars);
  let cm := transpose (size family) v in
  if discrete sr.1 then
    do w <- family_to_vectors family (Some vars);
    Ok [seq ab.1 - ab.2 | ab <- zip cm (transpose (size family) w)]
  else Ok cm.

(* Lines 400-457.  Matrix sizes agree by typing (assertions 411, 414, 416); a missing
   U raises AttributeError in line 414. *)
Definition constrain_family (symmetries : seq Sy) (family : seq model) : res (seq model) :=
  if family is m0 :: _ then
    if ~~ all (fun m => mmom m == mmom m0) family then Err AssertionError
    else if ~~ all has_U symmetries then Err AttributeError
    else
      do rotated <- mapM (fun s => mapM (sapply s) family) symmetries;
      let vars := family_keys (flatten rotated) in
      do cms <- mapM (constraint_block family vars) (zip symmetries rotated);
      if nilp cms then Err ValueError                     (* np.vstack([]), 441 *)
      else
        let cm := flatten cms in
        if all (fun r => r == 0) cm then Ok family        (* 443-444 *)
        else
          do hs <- mapM (fun v => combine family (rowseq v)) (ns cm);
          Ok [seq h <- hs | ~~ nilp (mdata h)]
  else Ok family.

(* check_symmetry, 360-377, with exact comparison *)
Definition satisfies (s : Sy) (m : model) : res bool :=
  do m' <- sapply s m;
  Ok (all (fun k => (if discrete s then dget kone (mdata m) (Sym k) else 0) == dget kone (mdata m') (Sym k))
          (dkeys kone (mdata m') ++ dkeys kone (mdata m))).
Definition check_symmetry (family : seq model) (symmetries : seq Sy) : res unit :=
  do bs <- mapM (fun s => mapM (satisfies s) family) symmetries;
  if all (fun b => b) (flatten bs) then Ok tt else Err ValueError.
End Constrain.
End Family.
