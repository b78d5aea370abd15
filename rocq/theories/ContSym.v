(* symmetry_finder.py: continuous_symmetries 657-756 and _reduced_model 759-787. *)
From mathcomp Require Import all_ssreflect all_algebra.
From mathcomp Require Import complex.
From Verif Require Import Prelude ModelCore PGE Keys LinSpan Linalg Family SymBlocks.

Set Implicit Arguments.
Unset Strict Implicit.
Unset Printing Implicit Defensive.
Import GRing.Theory Num.Theory.
Local Open Scope ring_scope.
Local Open Scope complex_scope.

Section ContSym.
(* [dim] = len(model.momenta), 692; [Q] is the type of products of other symbols in the keys *)
Variables (F : rcfType) (dim : nat) (Q : eqType) (qone : Q) (Mom : eqType).
Local Notation C := F[i].
Local Notation key := [eqType of Keys.key F dim Q].
Local Notation kmodel n := (model key Mom [lmodType C of 'M[C]_n.+1]).
Let ko : key := kone F dim qone.

(* nullspace of a real array, followed by sparse_basis when prettify is set, 731-733 *)
Variable ns : forall M : nat, seq 'rV[F]_M -> seq 'rV[F]_M.
(* the projectors Ps of _reduce_hamiltonian, as in SymBlocks.v *)
Variables (N k : nat) (n d : 'I_k -> nat) (P : forall i : 'I_k, nat -> 'M[C]_(N.+1, (n i).+1)).
Variable H : kmodel N.

(* _reduced_model 784-786: P[0].T.conj() @ model @ P[0].  The product with an array keeps all keys
   (model.py:402-433). *)
Definition rham (i : 'I_k) : kmodel (n i) :=
  mmap (W := [lmodType C of 'M[C]_((n i).+1)]) (fun A => dag (P i 0) *m A *m P i 0) H.

(* Rs(), 696-697, and matrix_basis(blockdim, traceless=True), 722 and 744 *)
Definition Rs : seq 'M[C]_dim := matrix_basis dim false true true.
Definition Ls (i : 'I_k) : seq 'M[C]_((n i).+1) := matrix_basis (n i).+1 true false false.
(* NR = dim * (dim - 1) / 2, 699 *)
Definition NR : nat := (dim * dim.-1)./2.
(* d**2 - 1 *)
Definition NL (i : 'I_k) : nat := ((n i).+1 ^ 2 - 1)%N.
(* blockind, 745 *)
Definition blockind (i : 'I_k) : nat := (NR + \sum_(j < k | (j < i)%N) NL j)%N.
(* the number of columns of the constraint matrix *)
Definition ncols : nat := (NR + \sum_(j < k) NL j)%N.

(* a row of np.hstack((np.vstack(Rblocks), la.block_diag of Lblocks)), 729 *)
Definition constraint_row (i : 'I_k) (r : 'rV[F]_(size Rs)) (l : 'rV[F]_(size (Ls i))) : 'rV[F]_ncols :=
  \row_c ([seq r 0 j | j <- enum 'I_(size Rs)] ++ nseq (blockind i - NR) 0 ++
          [seq l 0 j | j <- enum 'I_(size (Ls i))])`_c.

(* the rows of one block, 706-726 *)
Definition block_rows (i : 'I_k) : res (seq 'rV[F]_ncols) :=
  do trf <- mapM (fun R => cgg_apply qone (Some ('i *: R)) None (rham i)) Rs;
  let keys := undup (dkeys ko (mdata (rham i)) ++ family_keys ko trf) in
  do vR <- family_to_vectors ko trf (Some keys);
  do trf' <- mapM (fun L => cgg_apply qone None (Some L) (rham i)) (Ls i);
  do vL <- family_to_vectors ko trf' (Some keys);
  Ok [seq constraint_row ab.1 ab.2 | ab <- zip (transpose (size Rs) vR) (transpose (size (Ls i)) vL)].

(* the generator built from one solution, 738-748 *)
Definition spatial_part (v : 'rV[F]_ncols) : 'M[C]_dim :=
  \sum_(j < size Rs) (rowf v j)%:C *: ('i *: Rs`_j).
Definition block_part (v : 'rV[F]_ncols) (i : 'I_k) : 'M[C]_((n i).+1) :=
  \sum_(j < size (Ls i)) (rowf v (blockind i + j))%:C *: (Ls i)`_j.
Definition unitary_part (v : 'rV[F]_ncols) : 'M[C]_N.+1 :=
  \sum_i if (1 < (n i).+1)%N
         then \sum_(0 <= a < d i) (P i a *m block_part v i *m dag (P i a)) else 0.
(* with the assertion of 752-753, an exact comparison here *)
Definition generator (v : 'rV[F]_ncols) : res ('M[C]_dim * 'M[C]_N.+1) :=
  let R := spatial_part v in
  let L := unitary_part v in
  do trf <- cgg_apply qone (Some R) (Some L) H;
  if all (fun kv => kv.2 == 0) (mdata trf) then Ok (R, L) else Err AssertionError.

(* continuous_symmetries for a Model, 691-754 *)
Definition continuous_symmetries : res (seq ('M[C]_dim * 'M[C]_N.+1)) :=
  if (dim <= 1)%N then Ok [::] else
  (* list(rham.values())[0], 700 *)
  if has (fun i => nilp (mdata (rham i))) (enum 'I_k) then Err IndexError else
  do blocks <- mapM block_rows (enum 'I_k);
  mapM generator (ns (flatten blocks)).
End ContSym.
