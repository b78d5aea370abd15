(* Model of qsymm/kwant_linalg_lll.py: cvp (143-259) and voronoi (262-319).
   m.+1 basis vectors as rows; coordinates are integer rows.  la.lstsq, la.inv and la.norm are exact. *)
From mathcomp Require Import all_ssreflect all_algebra.
From Verif Require Import Prelude LinSpan NullSpec Complement Continuum.

Set Implicit Arguments.
Unset Strict Implicit.
Unset Printing Implicit Defensive.
Import Order.TTheory GRing.Theory Num.Theory.
Local Open Scope ring_scope.

Section CVP.
Variables (F : rcfType) (m d : nat).
Local Notation N := m.+1.
Local Notation point := 'rV[int]_N.
Implicit Types (B : 'M[F]_(N, d)) (v : 'rV[F]_d) (z : point).

(* np.round, rounding to a nearest integer *)
Variable rnd : F -> int.
(* np.argsort: points ordered by a key; equal keys in any order *)
Variable argsort : (point -> F) -> seq point -> seq point.

(* la.norm *)
Definition norm n (x : 'rV[F]_n) : F := Num.sqrt (dot x x).
(* the lattice vector with given coordinates, points @ basis *)
Definition lattice_point B z : 'rV[F]_d := map_mx intr z *m B.

(* vec_bas, 184, for independent basis vectors *)
Definition coordinates B v : 'rV[F]_N := v *m B^T *m invmx (B *m B^T).
(* rad, 205; np.max(np.diag(la.inv(bbt))) *)
Definition max_diag B : F := \big[Num.max/0]_i invmx (B *m B^T) i i.
Definition radius B : F := 2^-1 / Num.sqrt (max_diag B).

(* the points of the box, 211-212; their order does not matter, they are sorted below *)
Definition box (center : point) (l : nat) : seq point :=
  [seq (\row_i (center 0 i - l%:Z + (f i : nat)%:Z)) : point | f : {ffun 'I_N -> 'I_(l.*2.+1)} <- enum {ffun 'I_N -> 'I_(l.*2.+1)}].

(* s[n-1]; s[-1] is the last element *)
Definition at_last T (x0 : T) (s : seq T) (n : nat) : T := if n is n'.+1 then nth x0 s n' else last x0 s.

(* the body of the loop, 207-259: None to continue with a larger box *)
Definition cvp_step B (center : point) (vec : 'rV[F]_d) (rad : F) (n : nat) (group_by_length : bool) (rtol : F) (l : nat) :
    option (res (seq point)) :=
  let points := box center l in
  if (size points < n)%N then None else
  let key z := norm (lattice_point B z - vec) in
  let points := argsort key points in
  let distances := [seq key z | z <- points] in
  if group_by_length then
    let boundaries := [seq i <- iota 0 (size distances).-1 | rtol * rad < distances`_i.+1 - distances`_i] in
    if ((size boundaries).+1 < n)%N then None else
    if (size boundaries).+1 == n then
      if last 0 distances < ((2 * l)%:R - 1 - rtol) * rad then Some (Ok points) else None
    else if boundaries is [::] then Some (Err IndexError)
    else let b := at_last 0%N boundaries n in
      if distances`_b < ((2 * l)%:R - 1 - rtol) * rad then Some (Ok (take b.+1 points)) else None
  else
    if at_last 0 distances n < ((2 * l)%:R - 1 - 0) * rad then Some (Ok (take n points)) else None.

Fixpoint cvp_loop B center vec rad n group_by_length rtol (fuel l : nat) : option (res (seq point)) :=
  if fuel is fuel'.+1 then
    if cvp_step B center vec rad n group_by_length rtol l is Some r then Some r
    else cvp_loop B center vec rad n group_by_length rtol fuel' l.+1
  else None.

(* cvp, 143-259; la.inv raises LinAlgError for dependent vectors *)
Definition cvp (fuel : nat) (v : 'rV[F]_d) B (n : nat) (group_by_length : bool) (rtol : F) : option (res (seq point)) :=
  if B *m B^T \notin unitmx then Some (Err LinAlgError) else
  let vec_bas := coordinates B v in
  cvp_loop B (map_mx rnd vec_bas) (vec_bas *m B) (radius B) n group_by_length rtol fuel 1.

(* ---- voronoi, 262-319 ---- *)
(* the displacements in units of 1/2: all tuples of 0 and 1 except the first one, 291 *)
Definition displacements : seq point :=
  [seq (\row_i t`_i) : point | t <- behead (product (nseq N [:: 0 : int; 1]))].
(* one vector, 294-298: vertices = 2 * (cvp(vec @ basis, basis)[0] - vec) *)
Definition vertex fuel B (e : point) : option (res point) :=
  match cvp fuel (2^-1 *: lattice_point B e) B 1 false 0 with
  | Some (Ok (z :: _)) => Some (Ok (z *+ 2 - e))
  | Some (Ok [::]) => Some (Err IndexError)
  | Some (Err x) => Some (Err x)
  | None => None
  end.
Fixpoint vertices fuel B (es : seq point) : option (res (seq point)) :=
  if es is e :: es' then
    match vertex fuel B e, vertices fuel B es' with
    | Some (Ok z), Some (Ok zs) => Some (Ok (z :: zs))
    | Some (Err x), _ => Some (Err x)
    | Some (Ok _), Some (Err x) => Some (Err x)
    | _, _ => None
    end
  else Some (Ok [::]).
(* 299-314: keep[i] is set to False one after the other *)
Definition gram B (x y : point) : F := dot (lattice_point B x) (lattice_point B y).
Definition relevant B (rtol : F) (others : seq point) (x : point) : bool :=
  all (fun y => `|2^-1 * gram B x y / gram B y y| < 2^-1 - rtol) others.
Fixpoint discard B (rtol : F) (kept rest : seq point) : seq point :=
  if rest is x :: rest' then
    if relevant B rtol (kept ++ rest') x then discard B rtol (rcons kept x) rest' else discard B rtol kept rest'
  else kept.
Definition voronoi fuel B (reduced : bool) (rtol : F) : option (res (seq point)) :=
  match vertices fuel B displacements with
  | Some (Ok zs) =>
      let zs := if reduced then discard B rtol [::] zs else zs in
      Some (Ok (zs ++ [seq - z | z <- zs]))
  | r => r
  end.
End CVP.
