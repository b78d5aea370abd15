(* Concrete cases of C03, C07, C31, C45, C54, C62 and C91, whose theorems are in files on which many others
   depend.  Nothing else uses this file. *)
From mathcomp Require Import all_ssreflect all_algebra.
From mathcomp Require Import complex realalg.
From Verif Require Import Prelude ModelCore ModelProofs PGE PGEProofs Keys KeysProofs PropModel PropApply Family PropFamily.
From Verif Require Import PySet GroupGen GroupSpec PropGroups Tolerance PropTol Spin PropSpin SymBlocks PropBlocks Lie PropLie.

Set Implicit Arguments.
Unset Strict Implicit.
Unset Printing Implicit Defensive.
Import GRing.Theory Num.Theory.
Local Open Scope ring_scope.
Local Open Scope complex_scope.

(* ---- C03: the inversion with U = 1 and with U = i takes H(k) = 2 k to the same model, which is hermitian ---- *)
Section Apply.
Local Notation F := realalg_rcfType.
Local Notation C := F[i].
Local Notation P := [eqType of unit].
Local Notation key := (key F 1 P).
Local Notation mat := [lmodType C of 'M[C]_1].
Local Notation Mom := [eqType of unit].
Let pK : involutive (fun _ : P => tt : P). Proof. by case. Qed.
Let e1 : pw 1 := [ffun=> 1%N].
Let m : model [eqType of key] Mom mat := Mk [:: (Sym ((e1, 0, tt) : [eqType of key]), 2%:R%:M : mat)] [::] tt.
Let inv (U : 'M[C]_1) : pge F 1 0 := Pge (-1)%:M false false (Some U) false.
Example C03_phase : pge_apply (tt : P) (fun _ => tt) (inv 'i%:M) m = pge_apply (tt : P) (fun _ => tt) (inv 1%:M) m.
Proof.
have h : 'i * conjc 'i = 1 :> C by rewrite conjCi mulrN -expr2 sqr_i opprK.
have := @C03_apply_ignores_phase F 1 0 P tt (fun _ => tt) Mom (inv 1%:M) 1%:M 'i m h erefl.
by rewrite scalemx1.
Qed.

(* ---- C31: the family of one member (2 + 3 i) k; the vector of the constant term, which it lacks, is zero ---- *)
Let ko : [eqType of key] := kone F 1 (tt : P).
Let kk : [eqType of key] := (e1, 0, tt).
Let m1 : model [eqType of key] Mom [lmodType C of 'M[C]_(1, 1)] := Mk [:: (Sym kk, (2%:R +i* 3%:R)%:M)] [::] tt.
Let kne : (ko == kk) = false.
Proof. by apply/eqP => -[] /ffunP /(_ ord0); rewrite !ffunE. Qed.
Example C31_case : family_to_vectors ko [:: m1] (Some [:: ko; kk]) = Ok [:: [:: 0; 0; 2%:R; 3%:R]] /\
  family_to_vectors ko [:: m1] (Some [:: ko]) = Err AssertionError.
Proof.
have en : enum 'I_1 = [:: 0] by apply: (inj_map val_inj); rewrite val_enum_ord.
have kk' : (kk == ko) = false by rewrite eq_sym kne.
by split; rewrite /family_to_vectors /dkeys /= !inE ?kk' ?eqxx //= /member_vector /matrix_to_vector /= /pk_eq /= kne eqxx en /= !mxE.
Qed.
End Apply.

(* ---- C07: every generating set recorded for a subgroup of the four group is as short as possible ---- *)
Example C07_case : exists D, generate_subgroups eqK mulK id 9 9 klein = Some D /\
  forall K gens w, List.In (K, gens) D -> (forall x, inset eqK K x <-> is_product eqK mulK w x) -> (size gens <= size w)%N.
Proof.
have [D [E _]] := C06_case; exists D; split=> // K gens w KD Kw.
have [wf cl] := C06_hypotheses.
by apply: (C07_generate_subgroups_minimal klein_laws (@id_enum _) wf cl E KD Kw).
Qed.

(* ---- C45: L_x L_y - L_y L_x = i L_z for l = 1, entry (0, 1); the eigenvalue of L^2 is 2 ---- *)
Section Spin.
Variable F : rcfType.
Local Notation C := F[i].
Example C45_case : L1 F 2 0 1 = - 'i /\ comm (L1 F 0) (L1 F 1) 0 1 = 1.
Proof.
have E : L1 F 2 0 1 = - 'i by rewrite !mxE /= rmorphN rmorph1 mulrN1.
split=> //; have [[_ [-> _ _] _] _] := C45_momenta F.
by rewrite mxE E mulrN -expr2 sqr_i opprK.
Qed.
(* ---- C62: the block (i) squares to -1, and is replaced with one that squares to 1 ---- *)
Example C62_case : exists2 B' : 'M[C]_1, @nice_diag F 1 (fun=> 0%N) false 0 'i%:M = Ok B' & B' *m B' = 1%:M.
Proof.
have u : unitary ('i%:M : 'M[C]_1).
  rewrite /unitary; apply/matrixP => x y; rewrite !ord1 !mxE big_ord1 !mxE eqxx !mulr1n.
  by rewrite conjCi mulrN -expr2 sqr_i opprK.
have sq : ('i%:M : 'M[C]_1) *m 'i%:M = (-1)%:M by rewrite -scalar_mxM -expr2 sqr_i.
by have [B' E [h _ _]] := @C62_unitary_block F 1 (fun=> 0%N) 0 'i%:M (-1) u sq; exists B'.
Qed.
End Spin.

(* ---- C54: 10 and 11 are equal up to a relative tolerance of 1/11, and 1 and 2 are not; the larger of the two counts ---- *)
Example C54_case : aclose (fun x : rat => `|x|) 11%:R^-1 0 (10%:R%:M : 'M_1) 11%:R%:M /\
  ~~ aclose (fun x : rat => `|x|) 11%:R^-1 0 (1%:M : 'M_1) 2%:R%:M.
Proof. by split; rewrite aclose1. Qed.

(* ---- C91: the two ladder operators do not span a Lie algebra; the commutator has been left out ---- *)
Section Ladder.
Variable K : fieldType.
Let gens (a : 'I_2) : 'M[K]_2 := if a == 0 then delta_mx 0 1 else delta_mx 1 0.
Let sum2 (c : 'I_2 -> K) : \sum_a c a *: gens a = c 0 *: delta_mx 0 1 + c 1 *: delta_mx 1 0.
Proof.
rewrite big_ord_recl big_ord1 /gens eqxx; congr (_ + c _ *: _); first exact: val_inj.
Qed.
Example C91_case lsq : lstsq_contract lsq -> struct_const gens lsq = Err ValueError.
Proof.
move=> lP; apply: C91_error => //.
  move=> c; rewrite sum2 => /matrixP h a; have := h 0 1; have := h 1 0; rewrite !mxE /= !(mulr0, mulr1, addr0, add0r) => h1 h0.
  by case: (ord2P a) => ->.
move=> cl; have [c] := cl 0 1; rewrite sum2 /gens eqxx /= !mul_delta_mx => /matrixP /(_ 0 0).
by rewrite !mxE /= !(mulr0, addr0, subr0) => /eqP; rewrite oner_eq0.
Qed.
End Ladder.
