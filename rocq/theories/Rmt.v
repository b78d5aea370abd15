(* Model of qsymm/kwant_rmt.py: t (50-58), p (61-69), c (72-77), h_t_matrix and h_p_matrix (80-90),
   gaussian (93-192), circular (195-322).

   The numbers drawn by the generator are arguments: randn returns arbitrary real matrices, randint an
   arbitrary choice.  A symmetry class is an element of the enumeration below, None stands for a string
   that is not in sym_list (48).  Exact arithmetic.  Indexing by an array, h[idx], takes rows; an index
   out of range, which cannot occur for the sizes that pass the checks, leaves the row where it is. *)
From mathcomp Require Import all_ssreflect all_algebra.
From mathcomp Require Import complex.
From Verif Require Import Prelude.

Set Implicit Arguments.
Unset Strict Implicit.
Unset Printing Implicit Defensive.
Import Order.TTheory GRing.Theory Num.Theory.
Local Open Scope ring_scope.

(* sym_list, 48 *)
Inductive sym_class := cA | cAI | cAII | cAIII | cBDI | cCII | cD | cDIII | cC | cCI.

Section Rmt.
Variable F : rcfType.
Local Notation C := F[i].

(* t, 50-58 *)
Definition t_sq (sym : sym_class) : int :=
  match sym with cCI | cAI | cBDI => 1 | cCII | cAII | cDIII => -1 | _ => 0 end.
(* p, 61-69 *)
Definition p_sq (sym : sym_class) : int :=
  match sym with cD | cDIII | cBDI => 1 | cC | cCI | cCII => -1 | _ => 0 end.
(* c, 72-77 *)
Definition chiral_class (sym : sym_class) : bool :=
  ((t_sq sym != 0) && (p_sq sym != 0)) || (if sym is cAIII then true else false).

(* h_t_matrix, 80-85, and h_p_matrix, 86-90; None for a key that is missing *)
Definition h_t_matrix (sym : sym_class) : option (seq (seq C)) :=
  match sym with
  | cAI => Some [:: [:: 1]]
  | cCI => Some [:: [:: 0; 1]; [:: 1; 0]]
  | cBDI => Some [:: [:: 1; 0]; [:: 0; -1]]
  | cAII | cDIII => Some [:: [:: 0; 'i]; [:: - 'i; 0]]
  | cCII => Some [:: [:: 0; 0; 'i; 0]; [:: 0; 0; 0; 'i]; [:: - 'i; 0; 0; 0]; [:: 0; - 'i; 0; 0]]
  | _ => None
  end.
Definition h_p_matrix (sym : sym_class) : option (seq (seq C)) :=
  match sym with
  | cC | cCI => Some [:: [:: 0; 'i]; [:: - 'i; 0]]
  | cCII => Some [:: [:: 0; 0; 'i; 0]; [:: 0; 0; 0; - 'i]; [:: - 'i; 0; 0; 0]; [:: 0; 'i; 0; 0]]
  | cD | cBDI => Some [:: [:: 1]]
  | cDIII => Some [:: [:: 0; 1]; [:: 1; 0]]
  | _ => None
  end.

Section Size.
Variable n : nat.
Definition conjm m k (A : 'M[C]_(m, k)) : 'M[C]_(m, k) := map_mx conjc A.
Definition toC (A : 'M[F]_n) : 'M[C]_n := map_mx (real_complex F) A.

(* (n // k) * pattern *)
Definition repeated (k : nat) (pattern : seq int) : seq int := flatten (nseq (n %/ k)%N pattern).
(* np.arange(n) + x *)
Definition shifted (x : seq int) (i : nat) : nat := absz (i%:Z + x`_i).
(* h[idx] *)
Definition rows (idx : nat -> nat) (h : 'M[C]_n) : 'M[C]_n := \matrix_(i, j) h (insubd i (idx i)) j.
(* h[:, idx] *)
Definition cols (idx : nat -> nat) (h : 'M[C]_n) : 'M[C]_n := \matrix_(i, j) h i (insubd j (idx j)).
(* x.reshape(-1, 1) * h * x *)
Definition signs (x : seq int) (h : 'M[C]_n) : 'M[C]_n := \matrix_(i, j) ((x`_i)%:~R * h i j * (x`_j)%:~R).
(* x.reshape(-1, 1) * h[idx][:, idx].conj() * x *)
Definition twist (x : seq int) (idx : nat -> nat) (h : 'M[C]_n) : 'M[C]_n := signs x (conjm (cols idx (rows idx h))).

(* gaussian, 93-192; draw1 and draw2 are the results of the first and the second call of randn *)
Definition gaussian (sym : option sym_class) (v : F) (draw1 draw2 : 'M[F]_n) : res 'M[C]_n :=
  if sym is Some sym then
    if (chiral_class sym || (t_sq sym == -1) || (p_sq sym == -1)) && odd n then Err ValueError else
    let tau_z := repeated 2 [:: 1; -1] in
    let idx_x := shifted tau_z in
    if (if sym is cCII then true else false) && (n %% 4 != 0)%N then Err ValueError else
    let factor := v / Num.sqrt 2%:R in
    let h := match sym with
             | cAI => toC draw1
             | cD | cBDI => 'i *: toC draw1
             | _ => toC draw1 + 'i *: toC draw2
             end in
    let h := h + conjm h^T in
    let h := if chiral_class sym then h - signs tau_z h else h in
    let factor := if chiral_class sym then factor / 2%:R else factor in
    let hf := match sym with
              | cAII | cDIII => (h + twist tau_z idx_x h, factor / Num.sqrt 2%:R)
              | cC | cCI => (h - twist tau_z idx_x h, factor / Num.sqrt 2%:R)
              | cCII =>
                let sigma_z := repeated 4 [:: 1; 1; -1; -1] in
                let idx_sigma_x := shifted [seq 2 * s | s <- sigma_z] in
                (h + twist sigma_z idx_sigma_x h, factor / Num.sqrt 2%:R)
              | _ => (h, factor)
              end in
    Ok (real_complex F hf.2 *: hf.1)
  else Err ValueError.

(* np.linalg.qr *)
Variable qr : 'M[C]_n -> 'M[C]_n * 'M[C]_n.
(* np.linalg.det(s) > 0 for a real matrix *)
Definition positive (x : C) : bool := 0 < Re x.

(* circular, 195-322.  charge is None or an integer; bits are the results of randint(2).  np.allclose(x, 0) is x == 0. *)
Definition circular (sym : option sym_class) (charge : option int) (draw1 draw2 : 'M[F]_n) (bits : nat -> bool) : res 'M[C]_n :=
  if sym is Some sym then
    if ((t_sq sym == -1) || (p_sq sym == -1)) && odd n then Err ValueError else
    let tau_z := repeated 2 [:: 1; -1] in
    let idx_x := shifted tau_z in
    let h := if p_sq sym == 1 then toC draw1
             else if p_sq sym == 0 then toC draw1 + 'i *: toC draw2
             else let h := toC draw1 + 'i *: toC draw2 in 'i *: (h - twist tau_z idx_x h) in
    let: (s, r) := qr h in
    if (p_sq sym == -1) && ~~ [forall i : 'I_n, forall j : 'I_n, ((j == i.+1 :> nat) && ~~ odd i) ==> (r i j == 0)]
    then Err RuntimeError else
    let s := \matrix_(i, j) (s i j * (r j j / `|r j j|)) in
    do s <- (match sym, charge with
             | cD, Some q | cDIII, Some q =>
               if (q != 1) && (q != -1) then Err ValueError else
               let det := \det s in
               let det := if sym is cDIII then det * (-1) ^+ (n %/ 2) else det in
               if (0 < q) != positive det then
                 if (n < 2)%N then Err IndexError else
                 Ok (rows (fun i => if i == n.-1 then n.-2 else if i == n.-2 then n.-1 else i) s)
               else Ok s
             | _, _ => Ok s
             end);
    match sym with
    | cAI => Ok (s^T *m s)
    | cCI => let s := s^T *m s in Ok (\matrix_(i, j) ('i * (tau_z`_j)%:~R * (cols idx_x s) i j))
    | cAII | cDIII => Ok ('i *: ((\matrix_(i, j) (s^T i j * (tau_z`_j)%:~R)) *m rows idx_x s))
    | cAIII | cBDI | cCII =>
      do diag <- (match sym, charge with
                  | cCII, None => Ok (fun k => 2 * (bits (k %/ 2)%N : nat)%:Z - 1)
                  | cCII, Some q =>
                    if (0 <= q) && (q <= (n %/ 2)%:Z) then
                      let q := 2 * q in Ok (nth 0 (nseq (absz q) (-1 : int) ++ nseq (n - absz q) 1))
                    else Err ValueError
                  | _, None => Ok (fun k => 2 * (bits k : nat)%:Z - 1)
                  | _, Some q =>
                    if (0 <= q) && (q <= n%:Z) then Ok (nth 0 (nseq (absz q) (-1 : int) ++ nseq (n - absz q) 1))
                    else Err ValueError
                  end);
      Ok ((\matrix_(i, j) ((diag j)%:~R * (conjm s^T) i j)) *m s)
    | _ => Ok s
    end
  else Err ValueError.
End Size.
End Rmt.
