(* A polynomial in the momenta that takes the value zero everywhere has zero
   coefficients: the values determine the Model. *)
From mathcomp Require Import all_ssreflect all_algebra.
From mathcomp Require Import complex.
From Verif Require Import Prelude ModelCore ModelProofs PropModel PGE PGEProofs Keys KeysProofs PropApply PropCGG LinSpan NullSpec PropLinalg Family FamilyProofs PropFamily FamilyOps PropConstrain GradedOps.

Set Implicit Arguments.
Unset Strict Implicit.
Unset Printing Implicit Defensive.
Import GRing.Theory Num.Theory.
Local Open Scope ring_scope.
Local Open Scope complex_scope.

(* digits in base N *)
Definition enc (N : nat) (f : nat -> nat) (d : nat) : nat := (\sum_(i < d) f i * N ^ i)%N.
Lemma encS N f d : (enc N f d.+1 = f 0%N + enc N (fun i => f i.+1) d * N)%N.
Proof.
rewrite /enc big_ord_recl /= expn0 muln1; congr addn; rewrite big_distrl; apply: eq_bigr => i _.
by rewrite /= /bump /= add1n expnSr mulnA.
Qed.
Lemma enc_inj N f g d : (forall i, (i < d)%N -> (f i < N)%N /\ (g i < N)%N) -> enc N f d = enc N g d ->
  forall i, (i < d)%N -> f i = g i.
Proof.
elim: d f g => // d IH f g H; rewrite !encS => E.
have [f0 g0] := H 0%N isT.
have E0 : f 0%N = g 0%N by have := congr1 (modn^~ N) E; rewrite !(addnC _ (_ * N)%N) !modnMDl !modn_small.
have N0 : (0 < N)%N by apply: leq_ltn_trans f0.
have E1 : enc N (fun i => f i.+1) d = enc N (fun i => g i.+1) d.
  by move: E; rewrite E0 => /addnI /eqP; rewrite eqn_pmul2r // => /eqP.
case=> [//|i] li; apply: (IH (fun i => f i.+1) (fun i => g i.+1)) => // j lj; exact: (H j.+1).
Qed.

Section Ext.
Variables (F : rcfType) (d n : nat) (P : eqType) (pone : P) (pmul : P -> P -> P) (pc : P -> P).
Variable (Mom : eqType) (mom : Mom).
Local Notation C := F[i].
Local Notation key := (key F d P).
Local Notation mat := [lmodType C of 'M[C]_n.+1].
Local Notation kmodel := (model [eqType of key] Mom mat).
Let ko : [eqType of key] := kone F d pone.
Local Notation coef m k := (dget ko (mdata m) (Sym (k : [eqType of key]))).
Local Notation good := (good ko mom).
Local Notation ass := (assignment F d pone pmul pc).
Local Notation ker := (ker (pone := pone) (pmul := pmul) (pc := pc)).

Lemma poly_zero (q : {poly C}) : (forall t : F, q.[t%:C] = 0) -> q = 0.
Proof.
move=> H; apply/eqP; apply: contraT => q0.
have := @max_poly_roots _ q [seq (i%:R : C) | i <- iota 0 (size q)] q0.
rewrite size_map size_iota ltnn => -> //.
- by apply/allP => x /mapP [i _ ->]; rewrite /root -(rmorph_nat [rmorphism of real_complex F]) H.
- by rewrite map_inj_uniq ?iota_uniq // => i j /eqP; rewrite eqr_nat => /eqP.
Qed.

Definition at_point (k : 'cV[F]_d) : ass.
Proof.
refine (@Assignment F d P pone pmul pc k (fun=> 1) (fun=> 1) erefl _ _ erefl _ _).
- by move=> *; rewrite mulr1.
- by move=> *; rewrite rmorph1.
- by move=> *; rewrite mulr1.
- by move=> *; rewrite rmorph1.
Defined.
Lemma kev_point k (x : key) : kev (at_point k) x = pev k (kpow x).
Proof. by rewrite /kev /= !mulr1. Qed.

Theorem values_determine_coefficients (m : kmodel) : good m -> hopfree pone m ->
  (forall x, ker (at_point x) m = 0) -> forall k, coef m k = 0.
Proof.
move=> [w _ _] hf H k0; pose ks := undup (k0 :: dkeys ko (mdata m)).
have u : uniq ks by apply: undup_uniq.
have s : {subset dkeys ko (mdata m) <= ks} by move=> k; rewrite mem_undup inE orbC => ->.
have k0s : k0 \in ks by rewrite mem_undup mem_head.
pose N := (\max_(k <- ks) \max_i kpow k i).+1.
have bd k i : k \in ks -> (kpow k i < N)%N.
  move=> kk; rewrite ltnS (big_rem k) //= leq_max; apply/orP; left.
  exact: (leq_bigmax (F := fun i => kpow k i)).
pose ex k := enc N (fun i => if insub i is Some j then kpow (k : key) j else 0%N) d.
have ex_inj k k' : k \in ks -> k' \in ks -> ex k = ex k' -> kpow k = kpow k'.
  move=> kk kk' /enc_inj E; apply/ffunP => i; have := E _ i (ltn_ord i); rewrite valK; apply.
  by move=> j lj; rewrite insubT !bd.
case: (eqVneq (coef m k0) 0) => [//|nz]; have [h0 p0] := hf _ nz.
apply/matrixP => a b; rewrite [RHS]mxE.
pose q : {poly C} := \sum_(k <- ks) (coef m k : 'M[C]_n.+1) a b *: 'X^(ex k).
have q0 : q = 0.
  apply: poly_zero => t; rewrite /q horner_sum.
  have := congr1 (fun A : 'M[C]_n.+1 => A a b) (H (\col_i t ^+ (N ^ i))).
  rewrite [RHS]mxE /KeysProofs.ker mevalE (deval_keys _ w u s) summxE => Hk; rewrite -[RHS]Hk; apply: eq_bigr => k _.
  rewrite mxE hornerZ hornerXn mulrC kev_point; congr (_ * _).
  rewrite /pev /ex /enc -rmorphX expr_sum rmorph_prod; apply: eq_bigr => i _.
  by rewrite mxE valK mulnC exprM rmorphX.
have := congr1 (fun r : {poly C} => r`_(ex k0)) q0; rewrite coef0 /q coef_sum.
rewrite (bigD1_seq k0) //= coefZ coefXn eqxx mulr1 big_seq_cond big1 ?addr0 // => k /andP[kk ne].
rewrite coefZ coefXn; case: (eqVneq (coef m k) 0) => [->|/hf [h p]]; first by rewrite mxE mul0r.
case: eqP; rewrite ?mulr0 // => /esym /(ex_inj _ _ kk k0s) E; case/eqP: ne.
by move: E h p h0 p0; case: (k) => [[? ?] ?]; case: (k0) => [[? ?] ?]; rewrite /kpow /khop /kpar /= => -> -> -> -> ->.
Qed.

Lemma difference (x y : kmodel) : good x -> good y ->
  exists2 z, good z & forall k, coef z k = coef x k - coef y k.
Proof.
move=> [wx sx mx] [wy sy my]; have Em : mmom x = mmom (mneg y) by rewrite /= mx my.
have [z E] := madd_ok ko Em; exists z.
  split; [by apply: (madd_wf wx _ E); rewrite mneg_wf| |by rewrite (madd_mom Em E)].
  have sy' : all_sym (mneg y) by rewrite mneg_sym.
  by have := all_sym_madd' ko sx sy'; rewrite /madd' E.
move=> k; rewrite (madd_coef k E); congr (_ + _); rewrite /mneg /=.
by elim: (mdata y) => [|kv l IH] /=; rewrite ?oppr0 // /pk_eq /= IH; case: ifP.
Qed.

Theorem values_determine_model (x y : kmodel) : good x -> good y -> hopfree pone x -> hopfree pone y ->
  (forall v, ker (at_point v) x = ker (at_point v) y) -> forall k, coef x k = coef y k.
Proof.
move=> gx gy hx hy H k; have [z gz Ez] := difference gx gy.
apply/eqP; rewrite -subr_eq0 -Ez; apply/eqP; apply: values_determine_coefficients => // [k'|v].
  rewrite Ez; case: (eqVneq (coef x k') 0) => [->|/hx //]; rewrite sub0r oppr_eq0; exact: hy.
have r : rlin ko (-1 : F) y x z by move=> k'; rewrite Ez rmorphN rmorph1 scaleN1r addrC.
by rewrite /KeysProofs.ker (rlin_eval _ gy gx gz r) -/(ker (at_point v) x) H rmorphN rmorph1 scaleN1r addNr.
Qed.

(* Hermitian at every momentum means Hermitian coefficients *)
Theorem hermitian_coefficients (m : kmodel) : good m -> hopfree pone m ->
  (forall v, dagger (ker (at_point v) m) = ker (at_point v) m) -> forall k, dagger (coef m k : 'M[C]_n.+1) = coef m k.
Proof.
move=> gm hf H; have [w s mo] := gm.
pose md : kmodel := Mk [seq (kv.1, dagger (kv.2 : 'M[C]_n.+1) : mat) | kv <- mdata m] (mkeep m) (mmom m).
have cd k : coef md k = dagger (coef m k : 'M[C]_n.+1).
  rewrite /=; elim: (mdata m) => [|kv l IH] /=; first by rewrite dagger0.
  by rewrite /pk_eq /= IH; case: ifP.
have gd : good md.
  split=> //; first by move: w; rewrite /wf_model /wf_dict /dkeys /= -map_comp.
  by move: s; rewrite /all_sym /= all_map.
have hd : hopfree pone md.
  move=> k; rewrite cd => nz; apply: hf; apply: contraNneq nz => ->; by rewrite dagger0.
move=> k; rewrite -cd; apply: values_determine_model => // v; rewrite -[RHS]H.
rewrite /KeysProofs.ker /ModelCore.meval /= big_map /=.
elim: (mdata m) => [|kv l IH]; first by rewrite !big_nil dagger0.
by rewrite !big_cons daggerD daggerZ !kev_point pev_conj IH.
Qed.
End Ext.
