(* Model of qsymm/symmetry_finder.py: bravais_point_group (790-849), bravais_group_2d (852-886),
   equals (998-1017), check_bravais_symmetry (1071-1080).

   Exact arithmetic: BlochCoeff objects with the same coefficient are equal if and only if their
   vectors are.  bravais_group_3d (889-995) is a parameter here, any function that returns
   generators or raises: what is proved about all dimensions does not depend on what it does, because
   the generators are checked afterwards (845).  It is modelled in Bravais3.  The tolerance of voronoi, 1e-5, is a parameter. *)
From mathcomp Require Import all_ssreflect all_algebra.
From mathcomp Require Import complex.
From Verif Require Import Prelude PySet GroupGen PGE Spin Factories LinSpan NullSpec Complement LLL CVP.

Set Implicit Arguments.
Unset Strict Implicit.
Unset Printing Implicit Defensive.
Import Order.TTheory GRing.Theory Num.Theory.
Local Open Scope ring_scope.

Section Bravais.
Variables (F : rcfType) (n : nat).
Local Notation pge := (pge F).

(* vectors that are transformed by R, g.R @ hop *)
Definition act d (R : 'M[F]_d) (v : 'rV[F]_d) : 'rV[F]_d := v *m R^T.
(* check_bravais_symmetry, 1071-1080 *)
Definition check_bravais_symmetry d (neighbors : seq 'rV[F]_d) (group : seq (pge d n)) : bool :=
  let nb := neighbors ++ [seq - v | v <- neighbors] in
  all (fun g => let r_nb := [seq act (pR g) v | v <- nb] in
                all (fun v => v \in r_nb) nb && all (fun v => v \in nb) r_nb) group.

(* equals, 998-1017.  The signature: length, sorted overlaps, sorted angles *)
Definition overlap d (v w : 'rV[F]_d) : F := `|dot v w|.
Definition angle d (v w : 'rV[F]_d) : F := (Num.sqrt (overlap v v * overlap w w))^-1 * overlap v w.
Definition signature d (vs : seq 'rV[F]_d) (v : 'rV[F]_d) : F * (seq F * seq F) :=
  (overlap v v, (sort <=%R [seq overlap v w | w <- vs], sort <=%R [seq angle v w | w <- vs])).
(* vector_sets[key].append(vector) on a defaultdict *)
Fixpoint append_at (K V : eqType) (dict : seq (K * seq V)) (k : K) (v : V) : seq (K * seq V) :=
  if dict is (k', vs) :: dict' then
    if k == k' then (k', rcons vs v) :: dict' else (k', vs) :: append_at dict' k v
  else [:: (k, [:: v])].
Definition equals d (vs : seq 'rV[F]_d) : seq (seq 'rV[F]_d) :=
  let dict := foldl (fun dict v => append_at dict (signature vs v) v) [::] vs in
  sort (fun a b => size a <= size b)%N [seq kv.2 | kv <- dict].

Variables (cs sn : F -> F).

(* bravais_group_2d, 852-886 *)
Definition bravais_group_2d (neighbors : seq 'rV[F]_2) : res (seq (pge 2 n)) :=
  let sets_eq := equals neighbors in
  let num_eq := [seq size s | s <- sets_eq] in
  if (3 < size neighbors)%N then Err AssertionError else
  if (num_eq == [:: 1; 1]%N) || (num_eq == [:: 2]%N) then
    do Mx <- mirror (neighbors`_0) None None;
    do My <- mirror (neighbors`_1) None None;
    if num_eq == [:: 2]%N then do C4 <- rotation_2d cs sn 4%:R^-1 None None; Ok [:: Mx; My; C4]
    else Ok [:: Mx; My]
  else if (num_eq == [:: 1; 2]%N) || (num_eq == [:: 3]%N) then
    let vecs := last [::] sets_eq in
    do Mx <- mirror (vecs`_0 + vecs`_1) None None;
    do My <- mirror (vecs`_0 - vecs`_1) None None;
    if num_eq == [:: 3]%N then do C6 <- rotation_2d cs sn 6%:R^-1 None None; Ok [:: Mx; My; C6]
    else Ok [:: Mx; My]
  else Ok [::].

Variable rnd : F -> int.
Variable gsc : forall N, 'rV[F]_N -> 'rV[F]_N -> F.
Variable near : F -> F -> bool.
Variable argsort : forall N, ('rV[int]_N -> F) -> seq 'rV[int]_N -> seq 'rV[int]_N.
Variable bravais_group_3d : seq 'rV[F]_3 -> res (seq (pge 3 n)).

(* the dimensional dispatch, 829-838 *)
Definition group_nd (N : nat) : seq 'rV[F]_N -> res (seq (pge N n)) :=
  match N return seq 'rV[F]_N -> res (seq (pge N n)) with
  | 1%N => fun _ => Ok [::]
  | 2%N => bravais_group_2d
  | 3%N => bravais_group_3d
  | _ => fun _ => Err NotImplementedError
  end.

Variable ord : forall d, seq (pge d n) -> seq (pge d n).

(* bravais_point_group for a square array of periods, 820-849; voronoi uses tolerance rtol *)
Definition bravais_square m (fuel : nat) (periods : 'M[F]_m.+1) (c : F) (rtol : F) (tr ph generators : bool)
    : option (res (seq (pge m.+1 n))) :=
  match lll rnd (@gsc _) near fuel periods c with
  | None => None
  | Some (Err e) => Some (Err e)
  | Some (Ok (periods, _)) =>
    match voronoi rnd (@argsort _) fuel periods true rtol with
    | None => None
    | Some (Err e) => Some (Err e)
    | Some (Ok V) =>
      let neighbors := take ((size V)./2) [seq lattice_point periods z | z <- V] in
      match group_nd neighbors with
      | Err e => Some (Err e)
      | Ok gens =>
        match add_tr_ph tr ph None (inversion m.+1 None :: gens) with
        | Err e => Some (Err e)
        | Ok gens =>
          if ~~ check_bravais_symmetry neighbors gens then Some (Err AssertionError) else
          let set := set_of (@pge_eq F m.+1 n) gens in
          if generators then Some (Ok set)
          else omap Ok (generate_group (@pge_eq F m.+1 n) (@pge_mul F m.+1 n) (@ord _) fuel set)
        end
      end
    end
  end.

(* the projection onto the span of the periods, 813-818, if they have more components than there are periods *)
Variable proj : forall m d, 'M[F]_(m, d) -> 'M[F]_(m, d).
Definition bravais_rectangular m d (fuel : nat) (periods : 'M[F]_(m.+1, d)) c rtol tr ph generators :=
  bravais_square fuel (periods *m (proj periods)^T) c rtol tr ph generators.
End Bravais.
