(* The specification of exact null spaces, and its realisation over every field. *)
From mathcomp Require Import all_ssreflect all_algebra.
From Verif Require Import Prelude LinSpan.

Set Implicit Arguments.
Unset Strict Implicit.
Unset Printing Implicit Defensive.
Import GRing.Theory.
Local Open Scope ring_scope.

(* what a null space routine has to return: a basis of the null space *)
Definition exact_nullspace (K : fieldType) (ns : forall N, seq 'rV[K]_N -> seq 'rV[K]_N) : Prop :=
  forall N (A : seq 'rV[K]_N),
    is_basis [rmorphism of idfun] (ns N A) (fun v => forall r, List.In r A -> \sum_j r 0 j * v 0 j = 0).

(* there is such a routine over every field *)
Definition rows m n (K : fieldType) (A : 'M[K]_(m, n)) : seq 'rV[K]_n := [seq row i A | i <- enum 'I_m].
Definition of_rows n (K : fieldType) (s : seq 'rV[K]_n) : 'M[K]_(size s, n) := \matrix_i s`_i.

Lemma comb_rows m n (K : fieldType) (A : 'M[K]_(m, n)) c :
  comb [rmorphism of idfun] (rows A) c = (\row_(i < m) c i) *m A.
Proof.
rewrite /comb mulmx_sum_row; rewrite /rows size_map size_enum_ord; apply: eq_bigr => i _.
by rewrite (nth_map i) ?size_enum_ord // nth_ord_enum mxE.
Qed.

Lemma rows_basis m n (K : fieldType) (A : 'M[K]_(m, n)) : row_free A ->
  is_basis [rmorphism of idfun] (rows A) (fun v => (v <= A)%MS).
Proof.
move=> fA; split=> [c|v].
  rewrite comb_rows => /eqP; rewrite mulmx_free_eq0 // => /eqP E j.
  rewrite size_map size_enum_ord => lj.
  by move/rowP: E => /(_ (Ordinal lj)); rewrite !mxE.
split=> [/submxP [D ->]|[c ->]]; last by rewrite comb_rows submxMl.
exists (rowf D); rewrite comb_rows; congr (_ *m _); apply/rowP => j.
by rewrite mxE rowfE.
Qed.

Definition ker_rows (K : fieldType) N (A : seq 'rV[K]_N) : seq 'rV[K]_N :=
  rows (row_base (kermx (of_rows A)^T)).

Lemma In_nth T (x0 : T) s x : List.In x s -> exists2 i, (i < size s)%N & x = nth x0 s i.
Proof.
elim: s => //= y s IH [<-|/IH [i li ->]]; first by exists 0%N.
by exists i.+1.
Qed.

Lemma ker_rows_exact (K : fieldType) : exact_nullspace (@ker_rows K).
Proof.
move=> N A; apply: eq_basis (rows_basis (row_base_free _)) => v.
rewrite eq_row_base sub_kermx; split=> [/eqP E r /(In_nth 0) [i li ->]|H].
  move/rowP: E => /(_ (Ordinal li)); rewrite !mxE => E; rewrite -[RHS]E.
  by apply: eq_bigr => j _; rewrite !mxE mulrC.
apply/eqP/rowP => i; rewrite !mxE -[RHS](H A`_i); last exact: nth_In.
by apply: eq_bigr => j _; rewrite !mxE mulrC.
Qed.
