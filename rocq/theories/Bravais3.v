(* Model of qsymm/symmetry_finder.py: bravais_group_3d (889-995), pick_perp (1020-1027),
   threefold_axis (1030-1056), twofold_axis (1059-1068).

   Exact arithmetic: np.isclose and np.allclose are equality; the verbose output is left out.  np.cross and rotation get
   non-zero axes for vectors that are not parallel; for a zero axis numpy divides by zero, here the rotation is the identity. *)
From mathcomp Require Import all_ssreflect all_algebra.
From mathcomp Require Import complex.
From Verif Require Import Prelude PySet PGE Spin Factories LinSpan NullSpec Complement Bravais.

Set Implicit Arguments.
Unset Strict Implicit.
Unset Printing Implicit Defensive.
Import Order.TTheory GRing.Theory Num.Theory.
Local Open Scope ring_scope.

Section Bravais3.
Variables (F : rcfType) (n : nat).
Variables (cs sn : F -> F).
Local Notation vec := 'rV[F]_3.
Local Notation pge := (pge F 3 n).

(* rotation(angle, axis) without U and spin, groups.py:414-464; see rot3E *)
Definition rot3 (angle : F) (axis : vec) : pge :=
  Pge (rotation3 (cs angle) (sn angle) (normalize axis)) false false None false.
Lemma rot3E angle axis : rotation_3d cs sn angle axis false None None = Ok (rot3 angle axis).
Proof. by rewrite /rotation_3d /rot3 /= scale1r. Qed.
(* np.cross *)
Definition npcross (u v : vec) : vec :=
  vec3 (u 0 1 * v 0 2 - u 0 2 * v 0 1) (u 0 2 * v 0 0 - u 0 0 * v 0 2) (u 0 0 * v 0 1 - u 0 1 * v 0 0).

(* pick_perp, 1020-1027; other_vectors is given by the caller *)
Definition pick_perp (vectors : seq vec) (k : nat) (others : seq vec) : seq vec :=
  [seq v <- vectors | (k <= count (fun w => (dot v w == 0)%R) others)%N].

(* threefold_axis, 1030-1056; prop_to_id of a diagonal matrix: the entries are equal *)
Definition signs3 : seq (F * (F * F)) :=
  [seq (a, bc) | a <- [:: 1; -1], bc <- [seq (b, c) | b <- [:: 1; -1], c <- [:: 1; -1]]].
Definition threefold_axis (vectors neighbors : seq vec) : res (option pge) :=
  if vectors is [:: v0; v1; v2] then
    let norm := dot v0 v0 in
    if ~~ ((dot v1 v1 == norm) && (dot v2 v2 == norm)) then Ok None else
    if all (fun o : F => `|o| / norm == 2^-1) [:: dot v0 v1; dot v0 v2; dot v1 v2] then
      let axis := npcross v0 v1 in
      let C3 := rot3 3%:R^-1 axis in
      let C6 := rot3 6%:R^-1 axis in
      if check_bravais_symmetry neighbors [:: C6] then Ok (Some C6)
      else if check_bravais_symmetry neighbors [:: C3] then Ok (Some C3)
      else Ok None
    else
      let axis (s : F * (F * F)) := s.1 *: v0 + s.2.1 *: v1 + s.2.2 *: v2 in
      let good s := let a := axis s in
        (`|dot a v1| == `|dot a v0|) && (`|dot a v2| == `|dot a v0|) && check_bravais_symmetry neighbors [:: rot3 3%:R^-1 a] in
      Ok (ohead [seq rot3 3%:R^-1 (axis s) | s <- signs3 & good s])
  else Err AssertionError.

(* it.combinations(vectors, 2) *)
Fixpoint pairs_of (vectors : seq vec) : seq (vec * vec) :=
  if vectors is v :: vs then [seq (v, w) | w <- vs] ++ pairs_of vs else [::].
(* twofold_axis, 1059-1068 *)
Definition twofold_axis (vectors neighbors : seq vec) : option pge :=
  let axes := [seq p.1 + s *: p.2 | s <- [:: 1; -1], p <- pairs_of vectors] in
  ohead [seq C2 <- [seq rot3 2%:R^-1 a | a <- axes] | check_bravais_symmetry neighbors [:: C2]].

(* [x, = vecs] and [x, y = vecs] *)
Definition unpack1 (vecs : seq vec) : res vec := if vecs is [:: x] then Ok x else Err ValueError.
Definition unpack2 (vecs : seq vec) : res (vec * vec) := if vecs is [:: x; y] then Ok (x, y) else Err ValueError.
Definition assert_some (g : option pge) : res pge := if g is Some C then Ok C else Err AssertionError.

Local Notation C2 := (rot3 2%:R^-1).
Local Notation C4 := (rot3 4%:R^-1).
Local Notation C6 := (rot3 6%:R^-1).
(* the sets that are reached by num_eq[-1] == num_eq[-2] == 2, 978 *)
Definition two_pairs (num_eq : seq nat) : bool := ((last 0 num_eq == 2) && (last 0 (belast 0 num_eq) == 2))%N.
(* bravais_group_3d, 889-995 *)
Definition bravais_group_3d (neighbors : seq vec) : res (seq pge) :=
  let sets_eq := equals neighbors in
  let num_eq := [seq size s | s <- sets_eq] in
  let set k := nth [::] sets_eq k in
  if (7 < size neighbors)%N then Err AssertionError else
  if num_eq == [:: 3]%N then Ok [seq C4 v | v <- neighbors]
  else if num_eq == [:: 1; 2]%N then
    do ax <- unpack2 (set 1%N); Ok (C4 (npcross ax.1 ax.2) :: [seq C2 v | v <- set 1%N])
  else if num_eq == [:: 1; 1; 1]%N then Ok [seq C2 v | v <- neighbors]
  else if num_eq == [:: 1; 3]%N then Ok [:: C6 (nth 0 (set 0%N) 0); C2 (nth 0 (set 1%N) 0)]
  else if num_eq == [:: 1; 1; 2]%N then
    do p <- unpack2 (set 2%N); Ok [:: C2 (p.1 + p.2); C2 (p.1 - p.2); C2 (npcross p.1 p.2)]
  else if num_eq == [:: 1; 1; 1; 1]%N then
    do axis <- unpack1 (pick_perp neighbors 3 neighbors); Ok [:: C2 axis]
  else if num_eq == [:: 3; 4]%N then Ok [seq C4 v | v <- set 0%N]
  else if (num_eq == [:: 1; 2; 4]%N) || (num_eq == [:: 2; 4]%N) then
    let axes := if size num_eq == 2%N then set 0%N else set 1%N in
    do ax <- unpack2 axes; Ok (C4 (npcross ax.1 ax.2) :: [seq C2 v | v <- axes])
  else if (num_eq == [:: 1; 1; 1; 4]%N) || (num_eq == [:: 1; 1; 4]%N) then
    let axes := [seq nth 0 s 0 | s <- sets_eq & size s == 1%N] in
    Ok (C2 (npcross axes`_0 axes`_1) :: [seq C2 v | v <- axes])
  else if num_eq == [:: 6]%N then
    let v := nth 0 neighbors 0 in
    do w <- unpack1 (pick_perp neighbors 1 [:: v]); Ok [:: C4 (v + w); C4 (v - w); C4 (npcross v w)]
  else if (num_eq == [:: 1; 3; 3]%N) || (num_eq == [:: 3; 3]%N) then
    do r <- threefold_axis (last [::] sets_eq) neighbors;
    do C3 <- assert_some r;
    do C2 <- assert_some (twofold_axis (last [::] sets_eq) neighbors);
    Ok [:: C3; C2]
  else if num_eq == [:: 1; 2; 2; 2]%N then
    let v := nth 0 (set 0%N) 0 in
    do p <- unpack2 (pick_perp neighbors 1 [:: v]); Ok [:: C2 v; C2 (p.1 + p.2); C2 (p.1 - p.2)]
  else if (size num_eq < 2)%N then Err IndexError
  else if two_pairs num_eq then
    do g <- assert_some (twofold_axis (set (size num_eq - 2)%N) neighbors);
    do h <- assert_some (twofold_axis (set (size num_eq - 1)%N) neighbors);
    Ok [:: g; h]
  else if all (fun k => k == 1)%N num_eq then Ok [::]
  else Err AssertionError.
End Bravais3.
