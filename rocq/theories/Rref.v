(* qsymm/linalg.py: rref (489-570). *)
From mathcomp Require Import all_ssreflect all_algebra fingroup perm.
From Verif Require Import Prelude Tolerance.

Set Implicit Arguments.
Unset Strict Implicit.
Unset Printing Implicit Defensive.
Import Order.Theory GRing.Theory Num.Theory.
Local Open Scope ring_scope.

Section Rref.
Variables (F : realFieldType) (K : fieldType) (nrm : K -> F) (rows columns : nat).
Implicit Types (red : 'M[K]_(rows, columns)) (S : 'M[K]_rows).

(* the row operations, linalg.py:517-533 *)
Definition pivot (i j : 'I_rows) : 'M[K]_rows :=
  \matrix_(a, b) (if ((a == i) && (b == j)) || ((a == j) && (b == i)) then 1
                  else if ((a == i) && (b == i)) || ((a == j) && (b == j)) then 0 else (a == b)%:R).
Definition rowsub (i : 'I_rows) (coeffs : 'cV[K]_rows) : 'M[K]_rows :=
  \matrix_(a, b) (if (a == i) && (b == i) then 1 else (a == b)%:R - (if b == i then coeffs a 0 else 0)).
Definition rowmul (i : 'I_rows) (coeff : K) : 'M[K]_rows :=
  \matrix_(a, b) (if (a == i) && (b == i) then coeff else (a == b)%:R).

(* [small x] stands for np.abs(x) < tol *)
Section Loop.
Variable small : K -> bool.

(* np.argmax(np.abs(red[r:, lead])) + r *)
Definition leading red (r : 'I_rows) (l : 'I_columns) : 'I_rows :=
  [arg max_(i > r | (r <= i)%N) nrm (red i l)]%O.

(* The while loop of lines 545-554.  [cols] are the columns lead, lead + 1, ...;
   None stands for leaving the for loop, Some (lead, i, the columns after lead)
   for break. *)
Fixpoint find_lead red (r : 'I_rows) (cols : seq 'I_columns) : option ('I_columns * 'I_rows * seq 'I_columns) :=
  if cols is l :: cols' then
    let i := leading red r l in
    if small (red i l) then find_lead red r cols' else Some (l, i, cols')
  else None.

(* The for loop of lines 543-566.  Division by zero gives nan in numpy and an
   error here. *)
Fixpoint rref_loop (rs : seq 'I_rows) (cols : seq 'I_columns) red S : res ('M[K]_(rows, columns) * 'M[K]_rows) :=
  if rs is r :: rs' then
    if find_lead red r cols is Some (l, i, cols') then
      let lv := red i l in
      if lv == 0 then Err ZeroDivisionError
      else
        let T1 := pivot i r in
        let S1 := T1 *m S in let red1 := T1 *m red in
        let T2 := rowmul r (1 / lv) in
        let S2 := T2 *m S1 in let red2 := T2 *m red1 in
        let T3 := rowsub r (col l red2) in
        rref_loop rs' cols' (T3 *m red2) (T3 *m S2)
    else Ok (red, S)
  else Ok (red, S).
End Loop.

(* The value returned: the reduced matrix alone, or with S. *)
Inductive rref_result := RedOnly of 'M[K]_(rows, columns) | RedS of 'M[K]_(rows, columns) & 'M[K]_rows.

(* linalg.py:513-570; np_rtol and np_atol are numpy's default tolerances *)
Definition rref (np_rtol np_atol : F) (m : 'M[K]_(rows, columns)) (rtol : F) (return_S : bool) : res rref_result :=
  if np_allclose nrm np_rtol np_atol m 0 then Ok (RedOnly m)
  else
    let tol := amax nrm m * rtol in
    do rS <- rref_loop (fun x => nrm x < tol) (enum 'I_rows) (enum 'I_columns) m 1%:M;
    Ok (if return_S then RedS rS.1 rS.2 else RedOnly rS.1).
End Rref.
