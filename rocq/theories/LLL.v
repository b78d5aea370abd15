(* Model of qsymm/kwant_linalg_lll.py: gs_coefficient, gs, is_c_reduced, lll (46-140).
   Arrays are matrices over a real closed field, m.+1 basis vectors as rows.  [rnd] is np.round (any rounding to a nearest
   integer); [gsc] is gs_coefficient, a parameter so that statements can be made for wrong coefficients. *)
From mathcomp Require Import all_ssreflect all_algebra.
From Verif Require Import Prelude LinSpan NullSpec Complement.

Set Implicit Arguments.
Unset Strict Implicit.
Unset Printing Implicit Defensive.
Import GRing.Theory Num.Theory.
Local Open Scope ring_scope.

Section LLL.
Variables (F : rcfType) (m d : nat).
Local Notation N := m.+1.
Implicit Types (i j : 'I_N).

(* gs_coefficient, 46-48; a division by zero gives 0 here and nan or inf in numpy *)
Definition gs_coefficient (a b : 'rV[F]_d) : F := dot a b / dot b b.

(* mat[i] = r and mat[i, j] = x *)
Definition set_row k (M : 'M[F]_(N, k)) i (r : 'rV[F]_k) : 'M[F]_(N, k) := \matrix_(a, b) if a == i then r 0 b else M a b.
Definition set_entry (M : 'M[F]_N) i j (x : F) : 'M[F]_N := \matrix_(a, b) if (a == i) && (b == j) then x else M a b.
Definition below i : seq 'I_N := [seq j : 'I_N <- enum 'I_N | (j < i)%N].

Variable rnd : F -> int.
Variable gsc : 'rV[F]_d -> 'rV[F]_d -> F.

(* gs, 51-57 *)
Definition gs_row (M : 'M[F]_(N, d)) i : 'M[F]_(N, d) :=
  foldl (fun M j => set_row M i (row i M - gsc (row i M) (row j M) *: row j M)) M (below i).
Definition gs (M : 'M[F]_(N, d)) : 'M[F]_(N, d) := foldl gs_row M (enum 'I_N).
(* is_c_reduced, 60-64; r[:-1] / r[1:] < c, false if the divisor vanishes *)
Definition is_c_reduced (M : 'M[F]_(N, d)) (c : F) : bool :=
  let r k := dot (row (inord k) (gs M)) (row (inord k) (gs M)) in
  all (fun k => r k < c * r k.+1) (iota 0 m).

(* the local variables vecs, vecsstar, u of lll *)
Record lstate := LState { lvecs : 'M[F]_(N, d); lstar : 'M[F]_(N, d); lu : 'M[F]_N }.

(* ll_reduce, 98-101 *)
Definition reduce_with i (s : lstate) j : lstate :=
  let q := (rnd (lu s i j))%:~R in
  LState (set_row (lvecs s) i (row i (lvecs s) - q *: row j (lvecs s))) (lstar s)
         (set_row (lu s) i (row i (lu s) - q *: row j (lu s))).
Definition ll_reduce i (s : lstate) : lstate := foldl (reduce_with i) s (rev (below i)).

(* initialisation, 104-108 *)
Definition project_out i (s : lstate) j : lstate :=
  let a := gsc (row i (lvecs s)) (row j (lstar s)) in
  LState (lvecs s) (set_row (lstar s) i (row i (lstar s) - a *: row j (lstar s))) (set_entry (lu s) i j a).
Definition init_row (s : lstate) i : lstate := ll_reduce i (foldl (project_out i) s (below i)).
Definition lll_init (B : 'M[F]_(N, d)) : lstate := foldl init_row (LState B B 1%:M) (enum 'I_N).

(* the exchange of two neighbours, 117-131; j stands for i+1.  The loop over the later rows is written as one assignment. *)
Definition exchange i j (s : lstate) : lstate :=
  let star1 := set_row (lstar s) j (row j (lstar s) + lu s j i *: row i (lstar s)) in
  let a := gsc (row i (lvecs s)) (row j star1) in
  let u1 := set_entry (set_entry (set_entry (set_entry (lu s) i i a) j i 1) i j 1) j j 0 in
  let star2 := set_row star1 i (row i star1 - a *: row j star1) in
  let vecs := xrow i j (lvecs s) in
  let star := xrow i j star2 in
  let u2 := xrow i j u1 in
  let u3 : 'M[F]_N := \matrix_(k, l) if (j < k)%N && ((l == i) || (l == j)) then gsc (row k vecs) (row l star) else u2 k l in
  let s' := LState vecs star u3 in
  if 2^-1 < `|u3 j i| then ll_reduce j s' else s'.

(* the main loop, 111-132; None if the fuel does not suffice *)
Fixpoint lll_loop (fuel : nat) (c : F) (i : nat) (s : lstate) : option lstate :=
  if (i < m)%N then
    if fuel is fuel'.+1 then
      let i' : 'I_N := inord i in let j' : 'I_N := inord i.+1 in
      if dot (row i' (lstar s)) (row i' (lstar s)) < c * dot (row j' (lstar s)) (row j' (lstar s)) then
        lll_loop fuel' c i.+1 s
      else lll_loop fuel' c i.-1 (exchange i' j' s)
    else None
  else Some s.

(* np.allclose(np.round(coefs), coefs, atol=1e-6) *)
Variable near : F -> F -> bool.

(* lll, 67-140.  np.linalg.lstsq(vecs_orig.T, vecs.T): the solution of vecs_orig^T X = vecs^T *)
Definition lll (fuel : nat) (B : 'M[F]_(N, d)) (c : F) : option (res ('M[F]_(N, d) * 'M[int]_N)) :=
  if (d < N)%N then Some (Err ValueError) else
  if lll_loop fuel c 0 (lll_init B) is Some s then
    let coefs := (lvecs s *m pinvmx B)^T in
    let rounded := map_mx rnd coefs in
    if ~~ [forall i, forall j, near (rounded i j)%:~R (coefs i j)] then Some (Err RuntimeError) else
    if ~~ is_c_reduced (lvecs s) c then Some (Err RuntimeError) else
    Some (Ok (lvecs s, rounded))
  else None.
End LLL.
