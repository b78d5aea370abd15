(* C60: conserved_quantities *)
From mathcomp Require Import all_ssreflect all_algebra zify.
From mathcomp Require Import complex.
From Verif Require Import Prelude PGE PGEProofs LinSpan Linalg MatBasisProofs SymBlocks PropBlocks.

Set Implicit Arguments.
Unset Strict Implicit.
Unset Printing Implicit Defensive.
Import Order.TTheory GRing.Theory Num.Theory.
Local Open Scope ring_scope.

Section Direct.
Variables (K C : fieldType) (e : {rmorphism K -> C}) (W : lmodType C) (I : eqType) (g : I -> seq W).
Lemma comb_flatten_in (r : seq I) (cc : I -> nat -> K) : exists c, comb e (flatten [seq g i | i <- r]) c = \sum_(i <- r) comb e (g i) (cc i).
Proof.
elim: r => [|i r [c IH]]; first by exists (fun=> 0); rewrite comb_nil big_nil.
exists (fun j => if (j < size (g i))%N then cc i j else c (j - size (g i))%N).
rewrite /= comb_cat big_cons -IH; congr (_ + _); apply: eq_comb => j lj; first by rewrite lj.
by rewrite ltnNge leq_addr /= addKn.
Qed.
Lemma comb_flatten_out (r : seq I) (c : nat -> K) : uniq r ->
  exists2 cc, comb e (flatten [seq g i | i <- r]) c = \sum_(i <- r) comb e (g i) (cc i)
  & (forall i j, i \in r -> (j < size (g i))%N -> cc i j = 0) ->
    forall j, (j < size (flatten [seq g i | i <- r]))%N -> c j = 0.
Proof.
elim: r c => [|i r IH] c /=; first by exists (fun _ _ => 0); rewrite ?comb_nil ?big_nil.
case/andP=> ni ur; have [cc E z] := IH (fun j => c (size (g i) + j)%N) ur.
exists (fun l => if l == i then c else cc l) => [|zz j].
  rewrite comb_cat big_cons eqxx E; congr (_ + _); apply: eq_big_seq => l lr.
  by case: eqP => // el; rewrite -el lr in ni.
rewrite size_cat; case: (ltnP j (size (g i))) => [lj _|gj lj].
  by have := zz i j (mem_head _ _) lj; rewrite eqxx.
rewrite -(subnKC gj); apply: z => [l m lr lm|]; last by rewrite ltn_subLR.
by have := zz l m; rewrite inE lr orbT (_ : (l == i) = false); [apply | apply/eqP => el; rewrite -el lr in ni].
Qed.
End Direct.

Lemma size_combinations2 d : (d + 2 * size (combinations2 d) = d ^ 2)%N.
Proof.
have e : size (combinations2 d) = (\sum_(i < d) \sum_(j < d) (i < j))%N.
  rewrite /combinations2 size_filter -sum1_count big_mkcond big_allpairs_dep /= big_enum; apply: eq_bigr => i _.
  by rewrite big_enum; apply: eq_bigr => j _; case: ifP.
have s1 : (\sum_(i < d) \sum_(j < d) (j < i))%N = size (combinations2 d) by rewrite e exchange_big.
have s2 : (\sum_(i < d) \sum_(j < d) (i == j))%N = d.
  rewrite (eq_bigr (fun=> 1%N)) ?sum1_card ?card_ord // => i _.
  by rewrite (bigD1 i) //= eqxx big1 ?addn0 // => j; rewrite eq_sym => /negPf ->.
rewrite mul2n -addnn -{2}s1 [in X in (_ + X)%N]e -{1}s2 -!big_split /=.
rewrite (eq_bigr (fun=> d)) ?sum_nat_const ?card_ord ?mulnn // => i _.
rewrite -!big_split (eq_bigr (fun=> 1%N)) ?sum1_card ?card_ord // => j _ /=.
by rewrite -(inj_eq val_inj) /=; case: ltngtP.
Qed.
Lemma size_matrix_basis (F : rcfType) d (tl : bool) : (0 < d)%N ->
  (size (@matrix_basis F d tl false false) = d ^ 2 - tl)%N.
Proof.
move=> d0; rewrite -size_combinations2 /matrix_basis size_cat /=.
have -> l : size (flatten [seq [:: (1 : F[i]) *: (delta_mx p.1 p.2 + delta_mx p.2 p.1 : 'M_d);
     1 *: (('i)%C *: delta_mx p.1 p.2 - ('i)%C *: delta_mx p.2 p.1)] | p : 'I_d * 'I_d <- l]) = (2 * size l)%N.
  by elim: l => //= p l ->; rewrite mulnS.
case: tl => /=; rewrite size_map ?subn0; last by rewrite size_enum_ord.
rewrite size_filter -sum1_count big_mkcond big_enum /=.
case: d d0 => // d _; rewrite big_ord_recr /= ltnn addn0 (eq_bigr (fun=> 1%N)) ?sum1_card ?card_ord; first lia.
by move=> i _ /=; rewrite ltn_ord.
Qed.

Lemma scalar_of_comm (R : comRingType) m (M : 'M[R]_m.+1) :
  (forall y : nat, (\matrix_(u, v) ((u == 0) && (v == y :> nat))%:R) *m M = M *m (\matrix_(u, v) ((u == 0) && (v == y :> nat))%:R)) ->
  M = (M 0 0)%:M.
Proof.
move=> key; apply/matrixP => y z.
have /matrixP /(_ 0 z) := key y; rewrite !mxE (bigD1 y) //= !mxE !eqxx mul1r big1 => [|u uy]; last first.
  by rewrite !mxE (_ : (u == y :> nat) = false) ?mul0r //; apply: negPf; rewrite (inj_eq val_inj).
rewrite addr0 => ->; rewrite (bigD1 0) //= !mxE eqxx big1 ?addr0 => [|u u0]; last by rewrite !mxE (negPf u0) mulr0.
by rewrite mulr_natr (inj_eq val_inj) eq_sym.
Qed.

Section Main.
Variable F : rcfType.
Local Notation C := F[i].
Local Notation rc := [rmorphism of real_complex F].
Variables (N k : nat) (n d : 'I_k -> nat) (P : forall i : 'I_k, nat -> 'M[C]_(N.+1, (n i).+1)).
Hypotheses (orth : orthonormal d P) (compl : complete d P) (dpos : forall i, (0 < d i)%N).
Local Notation blockd := (block_diagonal d P).

Let E (i : 'I_k) (l : 'M[C]_(d i)) : 'M[C]_N.+1 := \sum_(a < d i) \sum_(b < d i) l a b *: (P i a *m dag (P i b)).
Let T (L : 'M[C]_N.+1) := L - (\tr L / N.+1%:R) *: 1%:M.
Let QE (i : 'I_k) (l : 'M[C]_(d i)) : quantity P l = T (E l). Proof. by []. Qed.

Let E_lin i (c : C) (x y : 'M[C]_(d i)) : E (c *: x + y) = c *: E x + E y.
Proof.
rewrite scaler_sumr -big_split; apply: eq_bigr => a _ /=; rewrite scaler_sumr -big_split; apply: eq_bigr => b _ /=.
by rewrite !mxE scalerDl scalerA.
Qed.
Let T_lin c x y : T (c *: x + y) = c *: T x + T y.
Proof.
rewrite /T mxtraceD mxtraceZ mulrDl -mulrA scalerDl -scalerA scalerBr opprD addrACA //.
Qed.
Let ET i : E (1%:M : 'M[C]_(d i)) = \sum_(0 <= a < d i) P i a *m dag (P i a).
Proof.
rewrite big_mkord; apply: eq_bigr => a _; rewrite (bigD1 a) //= !mxE eqxx scale1r big1 ?addr0 // => b ba.
by rewrite !mxE eq_sym (negPf ba) scale0r.
Qed.
Let sumE1 : \sum_i E (1%:M : 'M[C]_(d i)) = 1%:M.
Proof. by rewrite -compl; apply: eq_bigr => i _; rewrite ET. Qed.

Let PP i j a b : (a < d i)%N -> (b < d j)%N -> i != j -> dag (P i a) *m P j b = 0.
Proof. by move=> la lb ij; rewrite orth.2. Qed.
Let PPe i a b : (a < d i)%N -> (b < d i)%N -> dag (P i a) *m P i b = ((a == b)%:R)%:M.
Proof. exact: orth.1. Qed.

Let E_right i j (l : 'M[C]_(d j)) (b : 'I_(d i)) : i != j -> E l *m P i b = 0.
Proof.
move=> ij; rewrite mulmx_suml big1 // => a _; rewrite mulmx_suml big1 // => c _.
by rewrite -scalemxAl -mulmxA PP // 1?eq_sym // mulmx0 scaler0.
Qed.
Let E_rightd i (l : 'M[C]_(d i)) (b : 'I_(d i)) : E l *m P i b = \sum_a l a b *: P i a.
Proof.
rewrite mulmx_suml; apply: eq_bigr => a _; rewrite mulmx_suml (bigD1 b) //= -scalemxAl -mulmxA PPe // eqxx mulmx1.
rewrite big1 ?addr0 // => c cb; rewrite -scalemxAl -mulmxA PPe //.
by rewrite (_ : (c == b :> nat) = false) ?raddf0 ?mulmx0 ?scaler0 //; apply: negPf; rewrite (inj_eq val_inj).
Qed.
Let E_sand (l : forall i, 'M[C]_(d i)) i (a b : 'I_(d i)) :
  dag (P i a) *m (\sum_j E (l j)) *m P i b = (l i a b)%:M.
Proof.
rewrite -mulmxA mulmx_suml (bigD1 i) //= big1 ?addr0 => [|j ji]; last by rewrite E_right // eq_sym.
rewrite E_rightd mulmx_sumr (bigD1 a) //= -scalemxAr PPe // eqxx scalemx1 big1 ?addr0 // => c ca.
rewrite -scalemxAr PPe // (_ : (a == c :> nat) = false) ?raddf0 ?scaler0 //.
by apply: negPf; rewrite (inj_eq val_inj) eq_sym.
Qed.
Let E_inj (l l' : forall i, 'M[C]_(d i)) : \sum_i E (l i) = \sum_i E (l' i) -> forall i, l i = l' i.
Proof.
move=> e i; apply/matrixP => a b; have := E_sand l a b; rewrite e E_sand => /matrixP /(_ 0 0).
by rewrite !mxE eqxx.
Qed.
Let E_dag i (l : 'M[C]_(d i)) : dag (E l) = E (dag l).
Proof.
rewrite dag_sum (eq_bigr _ (fun a _ => dag_sum _ _ _)) exchange_big; apply: eq_bigr => b _; apply: eq_bigr => a _ /=.
by rewrite dagZ dag_mul dagK !mxE.
Qed.

(* the commutant of the block diagonal matrices *)
Let HP H (h : forall i, 'M[C]_((n i).+1)) i a : H = \sum_i \sum_(0 <= a < d i) P i a *m h i *m dag (P i a) -> (a < d i)%N ->
  H *m P i a = P i a *m h i.
Proof.
move=> -> la; rewrite mulmx_suml (bigD1 i) //= mulmx_suml [X in _ + X]big1 ?addr0 => [|j ji]; last first.
  rewrite mulmx_suml big_nat big1 // => b lb; rewrite -mulmxA PP ?mulmx0 //; by case/andP: lb.
rewrite big_mkord (bigD1 (Ordinal la)) //= -mulmxA PPe // eqxx mulmx1 big1 ?addr0 // => b ba.
rewrite -mulmxA PPe // (_ : (b == a :> nat) = false) ?raddf0 ?mulmx0 //.
by apply: negPf; rewrite -(inj_eq val_inj) in ba.
Qed.
Let PH H (h : forall i, 'M[C]_((n i).+1)) i a : H = \sum_i \sum_(0 <= a < d i) P i a *m h i *m dag (P i a) -> (a < d i)%N ->
  dag (P i a) *m H = h i *m dag (P i a).
Proof.
move=> eH la; apply: (can_inj (@dagK _ _ _)); rewrite !dag_mul !dagK.
apply: (@HP _ (fun i => dag (h i)) i a _ la); rewrite eH dag_sum; apply: eq_bigr => j _.
by rewrite dag_sum; apply: eq_bigr => b _; rewrite !dag_mul dagK mulmxA.
Qed.
Let E_comm i (l : 'M[C]_(d i)) H : blockd H -> E l *m H = H *m E l.
Proof.
case=> h eH; rewrite mulmx_suml mulmx_sumr; apply: eq_bigr => a _; rewrite mulmx_suml mulmx_sumr; apply: eq_bigr => b _.
by rewrite -scalemxAl -scalemxAr -mulmxA (PH eH) // [in RHS]mulmxA (HP eH) // mulmxA.
Qed.
Let comm_E L : (forall H, blockd H -> L *m H = H *m L) -> exists l : forall i, 'M[C]_(d i), L = \sum_i E (l i).
Proof.
move=> cL; pose l i : 'M[C]_(d i) := \matrix_(a, b) ((dag (P i a) *m L *m P i b) 0 0); exists l.
have key i j (a : 'I_(d i)) (b : 'I_(d j)) (h : forall i, 'M[C]_((n i).+1)) :
  h i *m (dag (P i a) *m L *m P j b) = (dag (P i a) *m L *m P j b) *m h j.
  have eH := erefl (\sum_i \sum_(0 <= a < d i) P i a *m h i *m dag (P i a)).
  rewrite mulmxA mulmxA -(PH eH) // -(mulmxA _ _ L) -cL; last by exists h.
  by rewrite mulmxA -mulmxA (HP eH) // mulmxA.
have off i j (a : 'I_(d i)) (b : 'I_(d j)) : i != j -> dag (P i a) *m L *m P j b = 0.
  move=> ij; have := key i j a b (fun l => ((l == i)%:R)%:M).
  by rewrite eqxx eq_sym (negPf ij) mul1mx raddf0 mulmx0.
have dg i (a b : 'I_(d i)) : dag (P i a) *m L *m P i b = (l i a b)%:M.
  by rewrite mxE; apply: scalar_of_comm => y; apply: (key i i a b (fun j => \matrix_(u, v) ((u == 0) && (v == y :> nat))%:R)).
rewrite -[LHS]mul1mx -[LHS]mulmx1 -compl mulmx_suml mulmx_suml; apply: eq_bigr => i _.
rewrite mulmx_sumr (bigD1 i) //= [X in _ + X]big1 ?addr0 => [|j ji].
  rewrite !big_mkord mulmx_suml mulmx_suml; apply: eq_bigr => a _; rewrite mulmx_sumr; apply: eq_bigr => b _.
  by rewrite mulmxA -(mulmxA _ _ L) -(mulmxA (P i a)) -(mulmxA (P i a)) dg -mul_scalar_mx !mulmxA scalar_mxC.
rewrite !big_mkord mulmx_suml mulmx_suml big1 // => a _; rewrite mulmx_sumr big1 // => b _.
by rewrite mulmxA -(mulmxA _ _ L) -(mulmxA (P i a)) -(mulmxA (P i a)) off 1?eq_sym // mul0mx mulmx0.
Qed.

(* L is conserved: it commutes with every Hamiltonian of this block structure *)
Definition conserved (L : 'M[C]_N.+1) := forall H, blockd H -> L *m H = H *m L.
Let B i := @matrix_basis F (d i) (i == 0%N :> nat) false false.
Let Pi i (X : 'M[C]_(d i)) := dagger X = X /\ (i == 0%N :> nat -> \tr X = 0).
Let B_basis i : is_basis rc (B i) (@Pi i).
Proof. by apply: eq_basis (C23_matrix_basis F (d i) (i == 0%N :> nat) false false) => X; split=> [[]|[]]. Qed.
Let T0 : T 0 = 0. Proof. by rewrite /T mxtrace0 mul0r scale0r subr0. Qed.
Let TD x y : T (x + y) = T x + T y. Proof. by have := T_lin 1 x y; rewrite !scale1r. Qed.
Let TZ c x : T (c *: x) = c *: T x. Proof. by have := T_lin c x 0; rewrite !addr0 T0 addr0. Qed.
Let E0 i : E (0 : 'M[C]_(d i)) = 0. Proof. by have := E_lin 1 (0 : 'M[C]_(d i)) 0; rewrite !scale1r addr0 => /eqP; rewrite -subr_eq subrr eq_sym => /eqP. Qed.
Let ED i (x y : 'M[C]_(d i)) : E (x + y) = E x + E y. Proof. by have := E_lin 1 x y; rewrite !scale1r. Qed.
Let EZ i c (x : 'M[C]_(d i)) : E (c *: x) = c *: E x. Proof. by have := E_lin c x 0; rewrite !addr0 E0 addr0. Qed.
Let T_sum (f : 'I_k -> 'M[C]_N.+1) : T (\sum_i f i) = \sum_i T (f i).
Proof. exact: (big_morph T TD T0). Qed.
Let comb_q i c : comb rc [seq quantity P l | l <- B i] c = T (E (comb rc (B i) c)).
Proof.
apply: (comb_map (f := @quantity F N k n d P i)) => [|x y|a x]; first by rewrite QE E0 T0.
- by rewrite !QE ED TD.
- by rewrite !QE EZ TZ.
Qed.
Let k0 : (0 < k)%N.
Proof.
case: k n d P orth compl dpos => // n' d' P' _ c _; move: c; rewrite /complete big_ord0 => /matrixP /(_ 0 0).
by rewrite !mxE eqxx => /eqP; rewrite eq_sym oner_eq0.
Qed.
Let i0 : 'I_k := Ordinal k0.
Let dN i : ((d i)%:R : C) != 0. Proof. by rewrite pnatr_eq0 -lt0n. Qed.
Let NN : (N.+1%:R : C) != 0. Proof. by rewrite pnatr_eq0. Qed.
Let T1 : T 1%:M = 0. Proof. by rewrite /T mxtrace1 divff // scale1r subrr. Qed.
Let tr_T L : \tr (T L) = 0. Proof. by rewrite /T raddfB /= mxtraceZ mxtrace1 divfK // subrr. Qed.
Let dag_dagger m (X : 'M[C]_m) : dag X = dagger X. Proof. by apply/matrixP => a b; rewrite !mxE. Qed.
Let tr_dag m (X : 'M[C]_m) : \tr (dag X) = conjc (\tr X).
Proof. by rewrite /mxtrace (rmorph_sum (conjc_rmorphism F)); apply: eq_bigr => a _; rewrite !mxE. Qed.
Let conjcN m : conjc (m%:R : C) = m%:R. Proof. exact: conjc_nat. Qed.

Theorem C60_basis : is_basis rc (conserved_quantities d P)
  (fun L => [/\ dag L = L, \tr L = 0 & conserved L]).
Proof.
rewrite /conserved_quantities; split=> [c|L].
  have [cc Ec zc] := comb_flatten_out rc (fun i => [seq quantity P l | l <- B i]) c (enum_uniq 'I_k).
  rewrite Ec (eq_bigr _ (fun i _ => comb_q i (cc i))) big_enum /= -T_sum => /eqP; rewrite subr_eq0 => /eqP.
  set t := (_ / _) => e; apply: zc => i j _; rewrite size_map => lj.
  have {}e : \sum_i E (comb rc (B i) (cc i)) = \sum_i E (t *: (1%:M : 'M[C]_(d i))).
    by rewrite e -sumE1 scaler_sumr; apply: eq_bigr => l _; rewrite EZ.
  have /= e' := E_inj e; have t0 : t = 0.
    have [_ p0] : Pi (comb rc (B i0) (cc i0)) by apply/(B_basis i0).2; exists (cc i0).
    move: (p0 isT); rewrite (e' i0) mxtraceZ mxtrace1 => /eqP; rewrite mulf_eq0 (negPf (dN _)) orbF => /eqP //.
  by have := (B_basis i).1 (cc i); apply=> //; rewrite e' t0 scale0r.
split=> [[hL tL cL]|[c ->]].
  have [l el] := comm_E cL; pose t := \tr (l i0) / (d i0)%:R.
  have hl i : dag (l i) = l i.
    have /= := @E_inj (fun i => dag (l i)) l; apply; rewrite -el -[in RHS]hL el dag_sum; by apply: eq_bigr => j _; rewrite E_dag.
  have tc : conjc t = t.
    by rewrite /t (rmorphM (conjc_rmorphism F)) /= -tr_dag hl conjc_inv conjcN.
  have inB i : Pi (l i - t *: 1%:M).
    split=> [|/eqP zi]; first by rewrite -dag_dagger dagB dagZ dag1 tc hl.
    have -> : i = i0 by apply: val_inj.
    by rewrite raddfB /= mxtraceZ mxtrace1 divfK // subrr.
  have [cc ec] : exists cc : 'I_k -> nat -> F, forall i, l i - t *: 1%:M = comb rc (B i) (cc i).
    have ex i : exists c, l i - t *: 1%:M = comb rc (B i) c by apply/(B_basis i).2.
    have := fin_all_exists ex; by case=> cc h; exists cc.
  have [c eC] := comb_flatten_in rc (fun i => [seq quantity P l | l <- B i]) (enum 'I_k) cc; exists c.
  rewrite eC (eq_bigr _ (fun i _ => comb_q i (cc i))) big_enum /= -T_sum.
  rewrite (eq_bigr (fun i => E (l i) + (- t) *: E (1%:M : 'M[C]_(d i)))) => [|i _]; last by rewrite -ec ED -scaleNr EZ.
  by rewrite big_split -scaler_sumr /= sumE1 -el TD TZ T1 scaler0 addr0 /T tL mul0r scale0r subr0.
have [cc -> _] := comb_flatten_out rc (fun i => [seq quantity P l | l <- B i]) c (enum_uniq 'I_k).
rewrite (eq_bigr _ (fun i _ => comb_q i (cc i))) big_enum /= -T_sum; set S := \sum_i _.
have hS : dag S = S.
  rewrite dag_sum; apply: eq_bigr => i _; rewrite E_dag dag_dagger.
  have [-> //] : Pi (comb rc (B i) (cc i)) by apply/(B_basis i).2; exists (cc i).
split; rewrite ?tr_T //.
  rewrite dagB dagZ dag1 hS; congr (_ - _ *: _).
  by rewrite (rmorphM (conjc_rmorphism F)) /= -tr_dag hS conjc_inv conjcN.
move=> H bH; rewrite mulmxBl mulmxBr -scalemxAl -scalemxAr mul1mx mulmx1; congr (_ - _).
by rewrite mulmx_suml mulmx_sumr; apply: eq_bigr => i _; apply: E_comm.
Qed.

(* over the complex numbers they span the whole traceless commutant *)
Theorem C60_complex : is_basis [rmorphism of idfun] (conserved_quantities d P) (fun L => \tr L = 0 /\ conserved L).
Proof.
have bd H : blockd H -> blockd (dag H).
  case=> h ->; exists (fun i => dag (h i)); rewrite dag_sum; apply: eq_bigr => i _; rewrite dag_sum; apply: eq_bigr => a _.
  by rewrite !dag_mul dagK mulmxA.
have cd L : conserved L -> conserved (dag L).
  move=> cL H /bd bH; apply: (can_inj (@dagK _ _ _)); rewrite !dag_mul dagK; exact/esym/cL.
have two : (2%:R : C) != 0 by rewrite pnatr_eq0.
have ii : ('i)%C * ('i)%C = -1 :> C by rewrite -expr2 sqr_i.
apply: complexify C60_basis _ _ => [L|h k' [hh _ _] [hk _ _] e].
  split=> [[tL cL]|[h [hh th ch] [k' [hk tk ck] ->]]]; last first.
    split=> [|H bH]; first by rewrite mxtraceD mxtraceZ th tk mulr0 addr0.
    by rewrite mulmxDl mulmxDr -scalemxAl -scalemxAr ch // ck.
  have dN2 : conjc (2%:R^-1 : C) = 2%:R^-1 by rewrite conjc_inv conjcN.
  have t2 : \tr (dag L) = 0 by rewrite tr_dag tL conjc0.
  exists (2%:R^-1 *: (L + dag L)).
    split=> [||H bH]; first by rewrite dagZ dN2 dag_dagger daggerD -!dag_dagger dagK addrC.
      by rewrite mxtraceZ mxtraceD tL t2 addr0 mulr0.
    by rewrite -scalemxAl -scalemxAr mulmxDl mulmxDr cL // cd.
  exists ((2%:R^-1 * - ('i)%C) *: (L - dag L)).
    split=> [||H bH]; last 1 first.
    - by rewrite -scalemxAl -scalemxAr mulmxBl mulmxBr cL // cd.
    - have cj2 : conjc (2%:R^-1 * - ('i)%C : C) = 2%:R^-1 * ('i)%C.
        by rewrite (rmorphM (conjc_rmorphism F)); congr (_ * _); [exact: dN2 | exact: (conj_Ni F)].
      by rewrite dagZ dagB dagK cj2 -opprB scalerN -scaleNr -mulrN.
    - by rewrite mxtraceZ raddfB /= tL t2 subrr mulr0.
  rewrite scalerA mulrCA mulrN ii opprK mulr1 -scalerDr addrACA subrr addr0 -mulr2n -scaler_nat scalerA mulVf //.
  by rewrite scale1r.
have : dag (h + ('i)%C *: k') = 0 by rewrite e dag_dagger dagger0.
rewrite dag_dagger daggerD daggerZ -!dag_dagger hh hk (conj_i F) scaleNr => e2.
have : (h + ('i)%C *: k') + (h - ('i)%C *: k') = 0 by rewrite e e2 addr0.
by rewrite addrACA subrr addr0 -mulr2n -scaler_nat => /eqP; rewrite scaler_eq0 (negPf two) => /eqP.
Qed.

(* the identity is not among them, and is independent of them *)
Corollary C60_identity : indep [rmorphism of idfun] (1%:M :: conserved_quantities d P).
Proof.
apply: indep_cons => [|s1]; first by case: C60_complex.
have [t1 _] := (C60_complex.2 _).2 s1; move: t1; rewrite mxtrace1 => /eqP.
by rewrite (negPf NN).
Qed.

Corollary C60_members L : List.In L (conserved_quantities d P) -> [/\ dag L = L, \tr L = 0 & conserved L].
Proof. by move=> /(span_mem rc); apply: (C60_basis.2 L).2. Qed.

Theorem C60_count : size (conserved_quantities d P) = ((\sum_i d i ^ 2) - 1)%N.
Proof.
rewrite /conserved_quantities size_flatten /shape -map_comp sumnE big_map big_enum /=.
rewrite (eq_bigr (fun i => (d i ^ 2 - (i == i0))%N)) => [|i _]; last by rewrite size_map size_matrix_basis.
rewrite (bigD1 i0) //= [in RHS](bigD1 i0) //= ?eqxx (eq_bigr (fun i => (d i ^ 2)%N)) => [|i /negPf ->]; last by rewrite subn0.
by rewrite addnC addnBA ?expn_gt0 ?dpos // addnC.
Qed.
End Main.

(* two copies of a one-dimensional block: the conserved quantities are the Pauli matrices *)
Section Example.
Variable F : rcfType.
Local Notation C := F[i].
Let n0 (i : 'I_1) := 0%N.
Let d0 (i : 'I_1) := 2%N.
Let P0 (i : 'I_1) (a : nat) : 'M[C]_(2, 1) := delta_mx (inord a) 0.
Let pauli : seq 'M[C]_2 := [:: delta_mx 0 0 - delta_mx 1 1; delta_mx 0 1 + delta_mx 1 0;
  ('i)%C *: delta_mx 0 1 - ('i)%C *: delta_mx 1 0].
Example C60_example :
  [/\ orthonormal d0 P0, complete d0 P0 & conserved_quantities d0 P0 = pauli].
Proof.
have e0 : inord 0 = 0 :> 'I_2 by apply: val_inj; rewrite /= inordK.
have e1 : inord 1 = 1 :> 'I_2 by apply: val_inj; rewrite /= inordK.
have dd (i j : 'I_2) : dag (delta_mx i 0 : 'M[C]_(2, 1)) *m delta_mx j 0 = ((i == j)%:R)%:M :> 'M[C]_1.
  by have := @sandwich F 1%:M i j; rewrite mulmx1 mxE.
have pp (i j : 'I_2) : delta_mx i 0 *m dag (delta_mx j 0 : 'M[C]_(2, 1)) = delta_mx i j by rewrite dag_delta mul_delta_mx.
split.
- split=> [i a b la lb|i j]; last by rewrite !ord1.
  rewrite dd (_ : (inord a == inord b :> 'I_2) = (a == b)) //.
  by rewrite -(inj_eq val_inj) /= !inordK.
- rewrite /complete big_ord_recl big_ord0 addr0 /d0 big_nat_recl // big_nat1 /P0 e0 e1 !pp.
  by apply/matrixP => x y; rewrite !mxE; case: (ord2P x) => ->; case: (ord2P y) => -> /=; rewrite ?addr0 ?add0r.
have en : enum 'I_2 = [:: 0; 1] by apply: (inj_map val_inj); rewrite val_enum_ord.
have en1 : enum 'I_1 = [:: 0] by apply: (inj_map val_inj); rewrite val_enum_ord.
have qE (l : 'M[C]_2) : \tr l = 0 -> @quantity F 1 1 n0 d0 P0 0 l = l.
  move=> tl; rewrite /quantity (_ : \sum_a _ = l); first by rewrite tl mul0r scale0r subr0.
  rewrite !big_ord_recl !big_ord0 !addr0 /P0 /= /bump /= !addn0 e0 e1 !pp.
  apply/matrixP => x y; rewrite !mxE.
  have l0 : lift 0 0 = 1 :> 'I_2 by apply: val_inj.
  by case: (ord2P x) => ->; case: (ord2P y) => -> /=; rewrite ?l0 !(mulr0, mulr1, addr0, add0r).
rewrite /conserved_quantities en1 /= cats0 /matrix_basis /combinations2 /d0 en /= !qE //.
- rewrite /pauli !scale1r; congr [:: _; _; _].
  by apply/matrixP => x y; rewrite !mxE; case: (ord2P x) => ->; case: (ord2P y) => -> /=; rewrite ?subr0 ?sub0r ?oppr0.
- by rewrite /mxtrace !big_ord_recl big_ord0 !mxE /= !mulr0 subrr !mulr0 !addr0.
- by rewrite /mxtrace !big_ord_recl big_ord0 !mxE /= !mul1r !addr0.
- by rewrite /mxtrace !big_ord_recl big_ord0 !mxE /= !mul1r addr0 subrr.
Qed.
End Example.
Print Assumptions C60_basis.
Print Assumptions C60_complex.
Print Assumptions C60_identity.
Print Assumptions C60_count.
