(* Model of symmetry_from_permutation (qsymm/groups.py:1241-1289).

   Matrices have n.+1 rows, the total number N of orbitals.  [perm] is a dictionary, a list
   of pairs with distinct keys.  Arrays are given by their shape and entries. *)
From mathcomp Require Import all_ssreflect all_algebra.
From mathcomp Require Import complex.
From Verif Require Import Prelude PGE Symmetrize.

Set Implicit Arguments.
Unset Strict Implicit.
Unset Printing Implicit Defensive.
Import GRing.Theory Num.Theory.
Local Open Scope ring_scope.
Local Open Scope complex_scope.

Section PermSym.
Variables (F : rcfType) (d n : nat) (Site : eqType).
Local Notation C := F[i].

Record arr := Arr { rows : nat; cols : nat; entry : nat -> nat -> C }.
(* np.eye(n) *)
Definition eye (k : nat) : arr := Arr k k (fun i j => (i == j)%:R).

Inductive onsite_action := NoAction | OneArray of arr | PerSite of seq (Site * arr).

(* d[k] *)
Definition lookup (T : Type) (D : seq (Site * T)) (a : Site) : res T :=
  foldr (fun kv r => if kv.1 == a then Ok kv.2 else r) (Err KeyError) D.

(* 1275-1278 *)
Definition action_of (o : onsite_action) (norbs : seq (Site * nat)) (a : Site) : res arr :=
  match o with
  | NoAction => do k <- lookup norbs a; Ok (eye k)
  | OneArray A => if a \in unzip1 norbs then Ok A else Err KeyError
  | PerSite D => lookup D a
  end.

(* U[ranges[a], ranges[b]] = A: numpy broadcasts dimensions of length 1 *)
Definition set_block (U : 'M[C]_n.+1) (ra rb : nat * nat) (A : arr) : res 'M[C]_n.+1 :=
  if ((rows A == ra.2) || (rows A == 1%N)) && ((cols A == rb.2) || (cols A == 1%N)) then
    Ok (\matrix_(i, j)
      if (ra.1 <= i < ra.1 + ra.2)%N && (rb.1 <= j < rb.1 + rb.2)%N then
        entry A (if rows A == 1%N then 0 else i - ra.1)%N (if cols A == 1%N then 0 else j - rb.1)%N
      else U i j)
  else Err ValueError.

(* set(s) == set(t) *)
Definition same_set (s t : seq Site) : bool := all (mem t) s && all (mem s) t.

(* one iteration of the loop, 1284-1287 *)
Definition perm_step (perm : seq (Site * Site)) (norbs : seq (Site * nat)) (o : onsite_action)
    (U : 'M[C]_n.+1) (a : Site) : res 'M[C]_n.+1 :=
  do b <- lookup perm a;
  do na <- lookup norbs a;
  do nb <- lookup norbs b;
  if na != nb then Err ValueError
  else
    do ra <- site_range 0 norbs a;
    do rb <- site_range 0 norbs b;
    do A <- action_of o norbs a;
    set_block U ra rb A.

Definition symmetry_from_permutation (R : 'M[F]_d) (perm : seq (Site * Site)) (norbs : seq (Site * nat))
    (o : onsite_action) (antiunitary antisymmetry : bool) : res (pge F d n) :=
  let norbs := odict norbs in
  if ~~ (same_set (unzip1 perm) (unzip2 perm) && same_set (unzip2 perm) (unzip1 norbs)) then Err ValueError
  else
    do U <- foldl (fun rU a => do U <- rU; perm_step perm norbs o U a) (Ok 0) (unzip1 norbs);
    Ok (Pge R antiunitary antisymmetry (Some U) false).
End PermSym.
