(* C42: bloch_family returns all terms of the given hoppings that have the symmetry. *)
From mathcomp Require Import all_ssreflect all_algebra.
From mathcomp Require Import complex realalg zify.
From Coq Require Import Sorting.Permutation.
From Verif Require Import Prelude PySet GroupGen GroupGenProofs ModelCore ModelProofs PropModel PGE PGEProofs PGEGroup GroupSpec.
From Verif Require Import Keys KeysProofs PropApply LinSpan NullSpec Complement Family FamilyProofs PropFamily FamilyOps PropConstrain.
From Verif Require Import FamilyTools PropFamilyTools Average StrictGroup Symmetrize PropSymmetrize PropBloch.

Set Implicit Arguments.
Unset Strict Implicit.
Unset Printing Implicit Defensive.
Import GRing.Theory Num.Theory.
Local Open Scope ring_scope.
Local Open Scope complex_scope.

(* ---- sites and orbitals ---- *)
Section Sites.
Variable Site : eqType.
Implicit Types (D l : seq (Site * nat)) (a : Site).

(* the site of every orbital, in the order of the rows of the Hamiltonian *)
Definition labels D : seq Site := flatten [seq nseq kv.2 kv.1 | kv <- D].
Definition site_of D (i : nat) : option Site := nth None [seq Some a | a <- labels D] i.

Lemma od_set_sites D a v : unzip1 (od_set D a v) = if a \in unzip1 D then unzip1 D else rcons (unzip1 D) a.
Proof.
elim: D => //= kv D IH; rewrite inE eq_sym; case: eqP => [->|_] //=.
by rewrite IH; case: ifP.
Qed.
Lemma od_set_uniq D a v : uniq (unzip1 D) -> uniq (unzip1 (od_set D a v)).
Proof. by rewrite od_set_sites; case: ifP => // n u; rewrite rcons_uniq n. Qed.
Lemma odict_rcons l kv : odict (rcons l kv) = od_set (odict l) kv.1 kv.2.
Proof. by rewrite /odict foldl_rcons. Qed.
Lemma odict_uniq l : uniq (unzip1 (odict l)).
Proof. by elim/last_ind: l => // l kv IH; rewrite odict_rcons od_set_uniq. Qed.

(* the number of orbitals of a site is the last one given *)
Definition last_number l a : option nat := if [seq kv.2 | kv <- l & kv.1 == a] is x :: s then Some (last x s) else None.
Lemma last_number_rcons l kv a : last_number (rcons l kv) a = if kv.1 == a then Some kv.2 else last_number l a.
Proof.
rewrite /last_number filter_rcons; case: ifP => // _; rewrite map_rcons.
by case: [seq _ | _ <- _] => //= x s; rewrite last_rcons.
Qed.
Lemma last_number_has l a : last_number l a = None -> a \notin unzip1 l.
Proof.
rewrite /last_number; case E: [seq _ | _ <- _ & _] => // _; apply/negP => /mapP [kv kl e].
have : kv.2 \in [seq kv.2 | kv <- l & kv.1 == a] by apply: map_f; rewrite mem_filter kl e eqxx.
by rewrite E.
Qed.

(* OrderedDict: sites in the order of their first occurrence, with the last number *)
Theorem C42_norbs l : unzip1 (odict l) = rev (undup (rev (unzip1 l))) /\
  forall a v, (a, v) \in odict l = (last_number l a == Some v).
Proof.
elim/last_ind: l => // l kv [IH1 IH2]; rewrite odict_rcons od_set_sites IH1; split.
  rewrite mem_rev mem_undup mem_rev [unzip1 (rcons _ _)]map_rcons rev_rcons /= mem_rev -/(unzip1 l).
  by case: ifP => // _; rewrite rev_cons.
move=> a v; rewrite last_number_rcons (fun_if (fun x => x == Some v)) -{}IH2; have := odict_uniq l; move: (odict l) => D {IH1 l}.
case: kv => b w /=; elim: D => [|[c u] D IH] /=.
  by rewrite inE xpair_eqE eq_sym [v == w]eq_sym; case: eqP.
case/andP=> nc ud; case: (eqVneq c b) => [eb|cb]; rewrite !inE !xpair_eqE.
  rewrite {c}eb in nc *.
  rewrite [b == a]eq_sym [v == w]eq_sym; case: eqP => [->|_] //=.
  have -> : (b, v) \in D = false by apply: contraNF nc => h; apply/mapP; exists (b, v).
  by rewrite orbF.
rewrite IH //; case: (eqVneq b a) => [<-|_] //; by rewrite [b == c]eq_sym (negPf cb).
Qed.

(* ranges of orbitals *)
Lemma site_of_notin D a i : a \notin unzip1 D -> site_of D i <> Some a.
Proof.
move=> na; rewrite /site_of; case: (ltnP i (size (labels D))) => li; last by rewrite nth_default // size_map.
rewrite (nth_map a) // => -[e]; case/negP: na; rewrite -e.
have /flattenP [s /mapP [kv kD ->]] := mem_nth a li; rewrite mem_nseq => /andP [_ /eqP ->].
by apply/mapP; exists kv.
Qed.
Lemma site_of_cons b v D i : site_of ((b, v) :: D) i = if (i < v)%N then Some b else site_of D (i - v).
Proof. by rewrite /site_of /labels /= map_cat nth_cat map_nseq size_nseq nth_nseq; case: (i < v)%N. Qed.
Lemma site_rangeP D a st s w : uniq (unzip1 D) -> site_range st D a = Ok (s, w) ->
  (st <= s)%N /\ forall i, (site_of D i == Some a) = (s <= st + i < s + w)%N.
Proof.
elim: D st => [|[b v] D IH] st //= /andP [nb u].
case: (eqVneq b a) => [<-|ba].
  case=> <- <-; split=> // i; rewrite site_of_cons leq_addr ltn_add2l.
  by case: ltnP => [|_]; [rewrite eqxx|apply/eqP; apply: site_of_notin].
move=> /(IH _ u) [le H]; split=> [|i]; first by apply: leq_trans le; apply: leq_addr.
rewrite site_of_cons; case: ltnP => iv.
  rewrite (_ : (Some b == Some a) = false); last by apply/eqP => -[] /eqP; rewrite (negPf ba).
  by lia.
by rewrite H; lia.
Qed.
Lemma site_range_total D a st : a \in unzip1 D -> exists r, site_range st D a = Ok r.
Proof.
elim: D st => //= kv D IH st; rewrite inE eq_sym; case: eqP => [_ _|_ /= /IH]; last exact.
by exists (st, kv.2).
Qed.
Lemma site_range_mem D a st r : site_range st D a = Ok r -> a \in unzip1 D.
Proof. by elim: D st => //= kv D IH st; rewrite inE eq_sym; case: eqP => //= _ /IH. Qed.
End Sites.

(* ---- real combinations ---- *)
Section RealSpan.
Variables (F : rcfType) (n : nat).
Local Notation C := F[i].
Local Notation mat := 'M[C]_n.+1.

Definition mspan (mats : seq mat) (A : mat) : Prop :=
  exists2 cs : seq (F * mat), (forall p, List.In p cs -> List.In p.2 mats) & A = \sum_(p <- cs) (p.1)%:C *: p.2.
Lemma mspan0 mats : mspan mats 0. Proof. by exists [::] => //; rewrite big_nil. Qed.
Lemma mspanD mats A B : mspan mats A -> mspan mats B -> mspan mats (A + B).
Proof.
move=> [s Hs ->] [t Ht ->]; exists (s ++ t); last by rewrite big_cat.
by move=> p /In_cat [/Hs|/Ht].
Qed.
Lemma mspan_mem mats A (r : F) : List.In A mats -> mspan mats (r%:C *: A).
Proof. by move=> h; exists [:: (r, A)]; [move=> p [<-|]|rewrite big_seq1]. Qed.
Lemma mspan_sum mats (I : Type) (s : seq I) (f : I -> mat) : (forall i, mspan mats (f i)) -> mspan mats (\sum_(i <- s) f i).
Proof. by move=> H; apply: big_ind => //; [apply: mspan0|exact: mspanD]. Qed.

(* a matrix that connects two ranges of indices is a combination of the blocks *)
Definition blocks (ra rb : nat * nat) : seq mat :=
  [seq block n ra rb (1 : C) r | r <- iota 0 (ra.2 * rb.2)] ++ [seq block n ra rb ('i : C) r | r <- iota 0 (ra.2 * rb.2)].
Definition in_range (r : nat * nat) (i : nat) := (r.1 <= i < r.1 + r.2)%N.

Lemma In_mem (T : eqType) (x : T) s : List.In x s <-> x \in s.
Proof.
elim: s => //= y s IH; rewrite inE; split=> [[->|/IH ->]|/orP [/eqP ->|/IH h]]; rewrite ?eqxx ?orbT //; by [left|right].
Qed.
Lemma block_in ra rb (z : C) r (i j : 'I_n.+1) : (r < ra.2 * rb.2)%N -> block n ra rb z r i j != 0 -> in_range ra i && in_range rb j.
Proof.
move=> lr; rewrite mxE; case: ifP => [/andP [/eqP ei /eqP ej]|]; last by rewrite eqxx.
have p : (0 < rb.2)%N by case: rb.2 lr => //; rewrite muln0.
have : (r %% rb.2 < rb.2)%N by rewrite ltn_pmod.
have : (r %/ rb.2 < ra.2)%N by rewrite ltn_divLR.
by rewrite /in_range ei ej; move: (r %/ _)%N (r %% _)%N => x y; lia.
Qed.
Lemma block_delta ra rb (z : C) (i j : 'I_n.+1) : in_range ra i -> in_range rb j ->
  block n ra rb z ((i - ra.1) * rb.2 + (j - rb.1)) = z *: delta_mx i j.
Proof.
rewrite /in_range => hi hj; apply/matrixP => k l; rewrite !mxE.
have p : (0 < rb.2)%N by lia.
rewrite divnMDl // divn_small ?addn0; last by lia.
rewrite modnMDl modn_small; last by lia.
rewrite (_ : (k == _ :> nat) = (k == i)); last by rewrite -val_eqE /=; apply/eqP/eqP; lia.
rewrite (_ : (l == _ :> nat) = (l == j)); last by rewrite -val_eqE /=; apply/eqP/eqP; lia.
by case: andP => _; rewrite ?mulr1 ?mulr0.
Qed.
Lemma complexE' (z : C) : z = (complex.Re z)%:C + (complex.Im z)%:C * ('i : C).
Proof. by case: z => a b; simpc. Qed.
Lemma blocks_span ra rb (A : mat) : (forall i j, A i j != 0 -> in_range ra i && in_range rb j) -> mspan (blocks ra rb) A.
Proof.
move=> H; rewrite [A]matrix_sum_delta; apply: mspan_sum => i; apply: mspan_sum => j.
have [->|nz] := eqVneq (A i j) 0; first by rewrite scale0r; apply: mspan0.
have /andP [hi hj] := H i j nz.
have lr : ((i - ra.1) * rb.2 + (j - rb.1) < ra.2 * rb.2)%N.
  move: hi hj; rewrite /in_range => hi hj.
  apply: leq_trans (_ : ((i - ra.1).+1 * rb.2 <= _)%N); first by rewrite mulSn; lia.
  by rewrite leq_mul2r; lia.
rewrite {1}[A i j]complexE' scalerDl -scalerA; apply: mspanD.
  rewrite -[delta_mx i j]scale1r -(block_delta 1 hi hj); apply: mspan_mem; apply/In_cat; left.
  by apply/In_map_iff; exists ((i - ra.1) * rb.2 + (j - rb.1))%N => //; apply/In_mem; rewrite mem_iota.
rewrite -(block_delta 'i hi hj); apply: mspan_mem; apply/In_cat; right.
by apply/In_map_iff; exists ((i - ra.1) * rb.2 + (j - rb.1))%N => //; apply/In_mem; rewrite mem_iota.
Qed.
Lemma span_blocks ra rb (A : mat) : mspan (blocks ra rb) A -> forall i j, A i j != 0 -> in_range ra i && in_range rb j.
Proof.
move=> [cs H ->] i j; apply: contraNT => nij; rewrite summxE.
elim: cs H => [|p cs IH] H; first by rewrite big_nil.
rewrite big_cons (eqP (IH _)) ?addr0 => [|q h]; last by apply: H; right.
rewrite mxE; have : p.2 i j = 0; last by move=> ->; rewrite mulr0.
apply/eqP; apply: contraNT nij.
by have /In_cat [/In_map_iff [r /In_mem]|/In_map_iff [r /In_mem]] := H p (or_introl erefl);
  rewrite mem_iota => lr ->; apply: block_in.
Qed.
End RealSpan.

Section Terms.
Variables (F : rcfType) (d n : nat) (P : eqType) (pone : P) (pmul : P -> P -> P) (pc : P -> P).
Variables (K : eqType) (kone : K) (Mom : eqType) (mom : Mom) (Site : eqType).
Local Notation C := F[i].
Local Notation pge := (pge F d n).
Local Notation mat := [lmodType C of 'M[C]_n.+1].
Local Notation model := (model K Mom mat).
Local Notation ass := (assignment F d pone pmul pc).
Local Notation good := (good kone mom).
Local Notation coef m k := (dget kone (mdata m) (Sym k)).
Local Notation fspan := (@FamilyProofs.fspan F n.+1 n.+1 K kone Mom).
Local Notation rlin := (@FamilyOps.rlin F n.+1 n.+1 K kone Mom).
Variables (ev : ass -> K -> C) (papply : pge -> model -> res model).
Local Notation value := (value kone ev).
Hypothesis AP : acts kone mom ev papply.
Variables (hopkey : 'rV[F]_d -> K) (kc : K -> K).
Hypothesis kcK : involutive kc.
Hypothesis ev_kc : forall a k, ev a (kc k) = conjc (ev a k).
Variables (ns cs : forall N, seq 'rV[F]_N -> seq 'rV[F]_N).
Local Notation hterm := (hermitian_term kone mom hopkey kc).

Lemma hterm_coef vec (A : 'M[C]_n.+1) m k : hterm vec A = Ok m ->
  coef m k = (if k == hopkey vec then A else 0) + (if k == kc (hopkey vec) then dagger A else 0).
Proof.
rewrite /hermitian_term; set term := construct _ _ _ _ _.
have tE : term = Mk [:: (Sym (hopkey vec), A : mat)] [::] mom by rewrite /term /construct /kept /=.
rewrite (mconj_props _ (inv_inj kcK)) ?tE //= => /(madd_coef k) -> /=.
by rewrite /pk_eq /= [k == _]eq_sym [k == kc _]eq_sym; congr (_ + _); case: ifP.
Qed.

Lemma fspan_rlin fam c x y m : fspan fam x -> fspan fam y -> rlin c x y m -> fspan fam m.
Proof.
move=> [cx Hx] [cy Hy] H; exists (fun j => c * cx j + cy j) => k.
rewrite H Hx Hy /fcoef scaler_sumr -big_split; apply: eq_bigr => j _ /=.
by rewrite scalerA -scalerDl rmorphD rmorphM.
Qed.
Lemma fspan_zero fam m : (forall k, coef m k = 0) -> fspan fam m.
Proof. by move=> H; exists (fun=> 0) => k; rewrite H /fcoef big1 // => j _; rewrite scale0r. Qed.

(* the terms of a combination of matrices *)
Lemma fspan_terms vec mats hf A m : mapM (hterm vec) mats = Ok hf -> mspan mats A -> hterm vec A = Ok m -> fspan hf m.
Proof.
move=> E [s Hs ->]; elim: s Hs m => [|p s IH] Hs m Em.
  apply: fspan_zero => k; rewrite (hterm_coef k Em) big_nil /dagger trmx0 /mxconj map_mx0.
  by do 2!case: ifP => _; rewrite addr0.
have [x xf ex] := mapM_In' E (Hs p (or_introl erefl)).
have [y [ey _ _ _]] := @hermitian_termP F d n P pone pmul pc K kone Mom mom ev hopkey kc kcK ev_kc vec (\sum_(p <- s) (p.1)%:C *: p.2).
have sx := fspan_member kone xf; have sy := IH (fun q h => Hs q (or_intror h)) y ey.
apply: (fspan_rlin (c := p.1) sx sy) => k.
rewrite (hterm_coef k Em) (hterm_coef k ex) (hterm_coef k ey) big_cons daggerD daggerZ scalerDr.
have -> : conjc (p.1)%:C = (p.1)%:C :> C by rewrite /= oppr0.
by rewrite addrACA; case: ifP => _; case: ifP => _; rewrite ?scaler0 ?addr0 ?add0r.
Qed.
Lemma terms_fspan vec mats hf m : mapM (hterm vec) mats = Ok hf -> fspan hf m ->
  exists2 A, mspan mats A & forall k, coef m k = (if k == hopkey vec then A else 0) + (if k == kc (hopkey vec) then dagger A else 0).
Proof.
move=> E [c H]; have [sz hE] := mapM_ok E.
exists (\sum_(j < size mats) (c j)%:C *: nth 0 mats j).
  by apply: mspan_sum => j; apply: mspan_mem; apply: nth_In.
move=> k; rewrite H /fcoef sz.
have -> : dagger (\sum_(j < size mats) (c j)%:C *: nth 0 mats j) = \sum_(j < size mats) (c j)%:C *: dagger (nth 0 mats j).
  rewrite /dagger raddf_sum mxconj_sum; apply: eq_bigr => j _.
  by rewrite [trmx_additive _ _ _ _]/= linearZ /= mxconjZ; congr (_ *: _); rewrite /= oppr0.
transitivity (\sum_(j < size mats) (c j)%:C *: ((if k == hopkey vec then nth 0 mats j else 0) + (if k == kc (hopkey vec) then dagger (nth 0 mats j) else 0))).
  apply: eq_bigr => j _; congr (_ *: _); rewrite (nth_map m) ?sz //.
  exact: hterm_coef (hE 0 m j (ltn_ord j)).
under eq_bigr do rewrite scalerDr.
rewrite big_split; congr (_ + _); case: ifP => _ //; by rewrite big1 // => j _; rewrite scaler0.
Qed.
(* ---- conserved quantities ---- *)
Local Notation onsite_apply := (@onsite_apply F d n K kone Mom).
Lemma onsite_lop g : lop kone mom (onsite_apply g).
Proof.
rewrite /Symmetrize.onsite_apply; case: g => R [U|] /=; last exact: lop_zero.
case: ifP => _; first exact: lop_zero.
have l1 : lop kone mom (fun m : model => Ok (mmap (W := mat) (fun A => A *m ('i *: U)) m)).
  by apply: lop_mmap => [u v|c u]; rewrite ?mulmxDl ?scalemxAl.
have l2 : lop kone mom (fun m : model => Ok (mmap (W := mat) (fun A => (- 'i *: U) *m A) m)).
  by apply: lop_mmap => [u v|c u]; rewrite ?mulmxDr ?scalemxAr.
exact: lop_add (lop_zero _ _ _ _ _) (lop_add l1 l2).
Qed.
Lemma mmap_coef (f : mat -> mat) (m : model) k : f 0 = 0 -> coef (mmap (W := mat) f m) k = f (coef m k).
Proof. by move=> f0; rewrite /= /mmap /=; elim: (mdata m) => //= kv D IH; case: ifP. Qed.
Lemma onsite_coef R U m m' : onsite_apply (R, Some U) m = Ok m' ->
  forall k, coef m' k = 'i *: (coef m k *m U - U *m coef m k).
Proof.
rewrite /Symmetrize.onsite_apply /=; case: eqP => [->|_].
  by case=> <- k; rewrite mulmx0 mul0mx subr0 scaler0.
case E: (madd _ _ _) => [c|] //= E' k.
rewrite (madd_coef k E') (madd_coef k E) !mmap_coef ?mulmx0 ?mul0mx //= add0r.
by rewrite -scalemxAr -scalemxAl scaleNr scalerBr.
Qed.
Lemma onsite_symmetric R (U : 'M[C]_n.+1) (m : model) : good m ->
  symmetric kone onsite_apply (fun=> false) (R, Some U) m <-> forall k, coef m k *m U = U *m coef m k.
Proof.
move=> gm; split=> [[m' E H] k|H].
  have := H k; rewrite (onsite_coef E) => /eqP; rewrite scaler_eq0 (negPf (neq0Ci _)) /= subr_eq0.
  by move/eqP.
have [m' [E _]] := (onsite_lop (R, Some U)).1 m gm; exists m' => // k.
by rewrite (onsite_coef E) H subrr scaler0.
Qed.
Lemma commute_value (m : model) (U : 'M[C]_n.+1) : good m -> (forall k, coef m k *m U = U *m coef m k) -> forall a, value m a *m U = U *m value m a.
Proof.
move=> [w _ _] H a; rewrite /PropSymmetrize.value mevalE (deval_keys _ w w (fun _ h => h)).
rewrite mulmx_suml mulmx_sumr; apply: eq_bigr => k _.
by rewrite -scalemxAl -scalemxAr H.
Qed.

(* ---- the values of a family ---- *)
Definition vspan (fam : seq model) (f : ass -> 'M[C]_n.+1) : Prop :=
  exists2 s : seq (F * model), (forall p, List.In p s -> List.In p.2 fam) &
    forall a, f a = \sum_(p <- s) (p.1)%:C *: value p.2 a.
Lemma vspan_mem fam m : List.In m fam -> vspan fam (value m).
Proof. by move=> h; exists [:: (1, m)]; [move=> p [<-|]|move=> a; rewrite big_seq1 scale1r]. Qed.
Lemma eq_vspan fam f g : f =1 g -> vspan fam f -> vspan fam g.
Proof. by move=> e [s H V]; exists s => // a; rewrite -e. Qed.
Lemma vspan_comb fam (r : F) f g h : vspan fam f -> vspan fam g -> (forall a, h a = r%:C *: f a + g a) -> vspan fam h.
Proof.
move=> [s Hs Vs] [t Ht Vt] V; exists ([seq (r * p.1, p.2) | p <- s] ++ t).
  by move=> p /In_cat [/In_map_iff [q /Hs h' ->]|/Ht].
move=> a; rewrite V Vs Vt big_cat big_map scaler_sumr; congr (_ + _); apply: eq_bigr => p _.
by rewrite scalerA rmorphM.
Qed.
Lemma vspan0 fam f : (forall a, f a = 0) -> vspan fam f.
Proof. by move=> H; exists [::] => // a; rewrite big_nil. Qed.
Lemma vspan_trans fam fam' f : vspan fam f -> (forall m, List.In m fam -> vspan fam' (value m)) -> vspan fam' f.
Proof.
move=> [s Hs V] H; suff : vspan fam' (fun a => \sum_(p <- s) (p.1)%:C *: value p.2 a) by apply: eq_vspan.
elim: s Hs {V} => [|p s IH] Hs; first by apply: vspan0 => a; rewrite big_nil.
apply: (vspan_comb (r := p.1) (H _ (Hs p (or_introl erefl))) (IH (fun q h => Hs q (or_intror h)))) => a.
by rewrite big_cons.
Qed.
Lemma vspan_fspan fam m : good m -> (forall x, List.In x fam -> good x) -> fspan fam m -> vspan fam (value m).
Proof.
move=> gm gf sm; have [c V] := span_value ev gm gf sm.
exists [seq (c j, nth m fam j) | j <- iota 0 (size fam)].
  by move=> p /In_map_iff [j /In_mem]; rewrite mem_iota => lj ->; apply: nth_In.
move=> a; rewrite V big_map (_ : iota 0 (size fam) = index_iota 0 (size fam)) ?big_mkord; last by rewrite /index_iota subn0.
apply: eq_bigr => j _.
by rewrite (nth_map m).
Qed.
(* ---- all terms of the hoppings ---- *)
Definition hop_value vec (A : 'M[C]_n.+1) (a : ass) : 'M[C]_n.+1 :=
  ev a (hopkey vec) *: A + dagger (ev a (hopkey vec) *: A).
(* A connects orbitals of site a with those of site b *)
Definition connects (norbs : seq (Site * nat)) (a b : Site) (A : 'M[C]_n.+1) : Prop :=
  forall i j, A i j != 0 -> site_of (odict norbs) i = Some a /\ site_of (odict norbs) j = Some b.
(* the hoppings that are used *)
Definition used (hops : seq (Site * Site * 'rV[F]_d)) (norbs : seq (Site * nat)) (onsites : bool)
    (h : Site * Site * 'rV[F]_d) : Prop :=
  List.In h hops \/ onsites /\ exists2 a, a \in unzip1 norbs & h = (a, a, 0).

Lemma connects_range norbs a b ra rb (A : 'M[C]_n.+1) : site_range 0 (odict norbs) a = Ok ra -> site_range 0 (odict norbs) b = Ok rb ->
  connects norbs a b A <-> forall i j, A i j != 0 -> in_range ra i && in_range rb j.
Proof.
case: ra rb => [sa wa] [sb wb] /(site_rangeP (odict_uniq norbs)) [_ ha] /(site_rangeP (odict_uniq norbs)) [_ hb].
rewrite /in_range /=; split=> H i j nz.
  by have [ea eb] := H i j nz; have := ha i; have := hb j; rewrite ea eb !eqxx !add0n => <- <-.
by have /andP [ia ib] := H i j nz; have := ha i; have := hb j; rewrite !add0n ia ib => /eqP -> /eqP ->.
Qed.
Lemma odict_mem norbs (a : Site) : a \in unzip1 (odict norbs) = (a \in unzip1 norbs).
Proof. by rewrite (C42_norbs norbs).1 mem_rev mem_undup mem_rev. Qed.

Lemma all_termsP hops (syms : seq (bsym F d n)) norbs onsites fam :
  all_terms kone mom hopkey kc ns hops syms norbs onsites = Ok fam ->
  (forall m, List.In m fam -> exists h hf, [/\ used hops norbs onsites h, List.In m hf &
     hopfamily kone mom hopkey kc ns (odict norbs) (conts syms) h = Ok hf]) /\
  (forall h, used hops norbs onsites h -> exists2 hf,
     hopfamily kone mom hopkey kc ns (odict norbs) (conts syms) h = Ok hf &
     forall m, List.In m hf -> List.In m fam).
Proof.
rewrite /all_terms; case: ifP => // _; case: ifP => // _; set hs := if onsites then _ else _.
have U h : List.In h hs <-> used hops norbs onsites h.
  rewrite /hs /used; case: (onsites).
    rewrite In_cat; split=> [[|/In_map_iff [kv kD ->]]|[|[_ [a]]]]; [by left| |by left|].
      by right; split=> //; exists kv.1 => //; rewrite -odict_mem; apply/mapP; exists kv => //; apply/In_mem.
    by rewrite -odict_mem => /mapP [kv /In_mem kD ->] ->; right; apply/In_map_iff; exists kv.
  by split=> [|[|[]]] //; left.
case E: (mapM _ hs) => [fams|] //= [<-]; split=> [m /In_concat [hf hff mh]|h /U hh].
  by have [h /U hh eh] := mapM_In E hff; exists h, hf.
have [hf hff eh] := mapM_In' E hh; exists hf => // m mh; apply/In_concat; by exists hf.
Qed.

Lemma hop_termsP norbs a b vec ra rb hf :
  site_range 0 (odict norbs) a = Ok ra -> site_range 0 (odict norbs) b = Ok rb ->
  mapM (hterm vec) (blocks F n ra rb) = Ok hf ->
  [/\ forall m, List.In m hf -> good m,
      forall m, good m -> fspan hf m -> exists2 A, connects norbs a b A & value m =1 hop_value vec A &
      forall A, connects norbs a b A -> exists m, [/\ good m, hterm vec A = Ok m, fspan hf m & value m =1 hop_value vec A]].
Proof.
move=> Ea Eb E; split.
- move=> m /(mapM_In E) [A _ e].
  have [y [ey gy _ _]] := @hermitian_termP F d n P pone pmul pc K kone Mom mom ev hopkey kc kcK ev_kc vec A.
  by move: e; rewrite ey => -[<-].
- move=> m gm /(terms_fspan E) [A sA cA]; exists A.
    by apply/(connects_range A Ea Eb); apply: span_blocks.
  have [y [ey gy _ vy]] := @hermitian_termP F d n P pone pmul pc K kone Mom mom ev hopkey kc kcK ev_kc vec A.
  move=> x; rewrite /hop_value -vy.
  have H k : coef m k = coef y k by rewrite cA (hterm_coef k ey).
  case: gm gy => [wm _ _] [wy _ _]; rewrite /PropSymmetrize.value !mevalE.
  pose ks := undup (dkeys kone (mdata m) ++ dkeys kone (mdata y)).
  have u : uniq ks by apply: undup_uniq.
  have s1 : {subset dkeys kone (mdata m) <= ks} by move=> k; rewrite mem_undup mem_cat => ->.
  have s2 : {subset dkeys kone (mdata y) <= ks} by move=> k; rewrite mem_undup mem_cat orbC => ->.
  by rewrite (deval_keys _ wm u s1) (deval_keys _ wy u s2); apply: eq_bigr => k _; rewrite H.
- move=> A cA.
  have [y [ey gy _ vy]] := @hermitian_termP F d n P pone pmul pc K kone Mom mom ev hopkey kc kcK ev_kc vec A.
  exists y; split=> //.
  by apply: (fspan_terms E _ ey); apply: blocks_span; apply/(connects_range A Ea Eb).
Qed.

(* C42: the terms before symmetrisation are the Hermitian terms of the hoppings, each with
   a matrix that connects the orbitals of the two sites, and their real combinations
   give all such terms *)
Theorem C42_terms_span hops syms norbs onsites fam : conts syms = [::] ->
  all_terms kone mom hopkey kc ns hops syms norbs onsites = Ok fam ->
  (forall m, List.In m fam -> exists a b vec A,
     [/\ used hops norbs onsites (a, b, vec), connects norbs a b A & value m =1 hop_value vec A]) /\
  forall a b vec A, used hops norbs onsites (a, b, vec) -> connects norbs a b A -> vspan fam (hop_value vec A).
Proof.
move=> E0 /all_termsP [H1 H2]; split.
  move=> m /H1 [[[a b] vec] [hf [hu mh]]]; rewrite E0 /hopfamily.
  case Ea: (site_range _ _ a) => [ra|] //=; case Eb: (site_range _ _ b) => [rb|] //=.
  case E: (mapM _ _) => [hf'|] //= [e]; move: mh; rewrite -{hf}e => mh.
  have [g /(_ m (g m mh) (fspan_member kone mh)) [A cA vA] _] := hop_termsP Ea Eb E.
  by exists a, b, vec, A.
move=> a b vec A /H2 [hf]; rewrite E0 /hopfamily.
case Ea: (site_range _ _ a) => [ra|] //=; case Eb: (site_range _ _ b) => [rb|] //=.
case E: (mapM _ _) => [hf'|] //= [e] sub cA.
have [g _ /(_ A cA) [m [gm _ sm vm]]] := hop_termsP Ea Eb E.
apply: (vspan_trans (fam := hf')) => [|x xh]; last by apply: vspan_mem; apply: sub; rewrite -e.
by apply: eq_vspan vm _; apply: vspan_fspan.
Qed.

(* the same with conserved quantities: exactly the terms that commute with all of them *)
Theorem C42_terms_conserved hops syms norbs onsites fam : exact_nullspace ns ->
  all_terms kone mom hopkey kc ns hops syms norbs onsites = Ok fam ->
  (forall m, List.In m fam -> (exists a b vec A,
     [/\ used hops norbs onsites (a, b, vec), connects norbs a b A & value m =1 hop_value vec A]) /\
     forall R U, List.In (R, Some U) (conts syms) -> forall a, value m a *m U = U *m value m a) /\
  forall a b vec A, used hops norbs onsites (a, b, vec) -> connects norbs a b A ->
    (forall R U, List.In (R, Some U) (conts syms) -> A *m U = U *m A /\ dagger A *m U = U *m dagger A) ->
    vspan fam (hop_value vec A).
Proof.
move=> ex /[dup] Eall /all_termsP [H1 H2].
case: (posnP (size (conts syms))) => [/size0nil E0|n0].
  have [T1 T2] := C42_terms_span E0 Eall; split=> [m /T1 h|a b vec A h1 h2 _]; last exact: T2 h1 h2.
  by split=> // R U; rewrite E0.
have nn : nilp (conts syms) = false by apply/negbTE; rewrite /nilp -lt0n.
have L g : List.In g (conts syms) -> lin_op kone mom (onsite_apply g).
  by move=> _; apply: lop_linop; apply: onsite_lop.
split.
  move=> m /H1 [[[a b] vec] [hf [hu mh]]]; rewrite /hopfamily nn.
  case Ea: (site_range _ _ a) => [ra|] //=; case Eb: (site_range _ _ b) => [rb|] //=.
  case E: (mapM _ _) => [hf'|] //= Ec.
  have [g T _] := hop_termsP Ea Eb E.
  have [gr H] := C32_constrain_family ex L g Ec.
  have gm := gr m mh; have [sm sym] := (H m gm).1 (fspan_member kone mh).
  have [A cA vA] := T m gm sm; split; first by exists a, b, vec, A.
  by move=> R U h; apply: commute_value => //; apply/(onsite_symmetric R U gm); apply: sym.
move=> a b vec A /H2 [hf]; rewrite /hopfamily nn.
case Ea: (site_range _ _ a) => [ra|] //=; case Eb: (site_range _ _ b) => [rb|] //=.
case E: (mapM _ _) => [hf'|] //= Ec sub cA com.
have [g _ /(_ A cA) [m [gm em sm vm]]] := hop_termsP Ea Eb E.
have [gr H] := C32_constrain_family ex L g Ec.
apply: (vspan_trans (fam := hf)) => [|x xh]; last by apply: vspan_mem; apply: sub.
apply: eq_vspan vm _; apply: vspan_fspan => //; apply/H => //; split=> // -[R [U|]] h.
  apply/onsite_symmetric => // k; have [c1 c2] := com R U h; rewrite (hterm_coef k em) mulmxDl mulmxDr.
  by congr (_ + _); case: ifP; rewrite ?mulmx0 ?mul0mx.
by exists (zeros_like mat m).
Qed.

(* invariance under the generators extends to the group *)
Lemma generated_moved ord fuel (gens G : seq pge) (f : ass -> 'M[C]_n.+1) : enumeration ord ->
  (forall g, List.In g gens -> strict_ok g) -> (forall g, List.In g gens -> moved g f =1 f) ->
  generate_group (@pge_eq F d n) (@pge_mul F d n) ord fuel gens = Some G ->
  forall g, List.In g G -> moved g f =1 f.
Proof.
move=> o ok inv EG g gG.
suff [] : strict_ok g /\ moved g f =1 f by [].
have {gG} := @generate_group_sound _ (@pge_eq F d n) (@pge_mul F d n) ord o fuel gens G EG g gG.
elim=> [x xg|x y _ [sx ix] _ [sy iy]]; first by split; [apply: ok|apply: inv].
split; first exact: (@spge_mul_subproof F d n (exist _ x sx) (exist _ y sy)).
have wfs z : strict_ok z -> pge_wf z.
  by move=> /and3P [h1 _ h2]; split=> //; case: (pU z) h2 => // U /unitarybP.
have sU : same_U x y.
  by rewrite /same_U /hasU; case/and3P: sx => _ _; case/and3P: sy => _ _; case: (pU x); case: (pU y).
move=> a; rewrite moved_mul //; [|exact: wfs|exact: wfs].
by rewrite (eq_moved x iy a) ix.
Qed.

Lemma vspan_average fam fam' (G : seq pge) f : (forall m, List.In m fam -> vspan fam' (average G (value m))) ->
  vspan fam f -> vspan fam' (average G f).
Proof.
move=> H [s Hs V]; have E : average G f =1 average G (fun a => \sum_(p <- s) (p.1)%:C *: value p.2 a).
  by move=> a; rewrite /average; congr (_ *: _); apply: eq_bigr => g _; rewrite /moved V.
apply: eq_vspan (fsym E) _; elim: s Hs {V E} => [|p s IH] Hs.
  apply: vspan0 => a; rewrite /average big1 ?scaler0 // => g _; by rewrite /moved big_nil act0.
apply: (vspan_comb (r := p.1) (H _ (Hs p (or_introl erefl))) (IH (fun q h => Hs q (or_intror h)))) => a.
by apply: average_linear => b; rewrite big_cons.
Qed.

Definition keeps_span (pretty : seq model -> res (seq model)) : Prop :=
  forall fam fam', (forall m, List.In m fam -> good m) -> pretty fam = Ok fam' ->
  (forall m, List.In m fam' -> good m) /\ forall m, good m -> fspan fam m -> fspan fam' m.

Lemma zero_model_value (m : model) : is_zero_model m -> forall a, value m a = 0.
Proof.
move=> /allIn z a; rewrite /PropSymmetrize.value mevalE /deval.
rewrite (eq_sum_In (g := fun=> 0)) ?big1 // => kv /z /eqP ->; exact: scaler0.
Qed.

(* C42: with symmetrize=True every invariant combination of the terms is a combination of
   the members of the result, and these are independent.  Missing: the rounding. *)
Theorem C42_complete_partial ord fuel pretty hops syms (norbs : seq (Site * nat)) onsites prettify fam res :
  (forall s, Permutation (ord s) s) -> exact_complement cs -> keeps_span pretty ->
  (0 < size (points syms))%N -> (forall g, List.In g (points syms) -> pge_wf g /\ pU g <> None) ->
  all_terms kone mom hopkey kc ns hops syms norbs onsites = Ok fam ->
  bloch_family kone mom hopkey kc papply ns cs ord fuel id pretty hops syms norbs onsites true prettify = Some (Ok res) ->
  (~~ prettify -> findep kone res) /\
  forall f, vspan fam f -> (forall g, List.In g (points syms) -> moved g f =1 f) -> vspan res f.
Proof.
move=> op CS kp n0 wf Ef; rewrite /bloch_family Ef.
set pg := [seq set_strict g | g <- points syms].
case EG: (generate_group _ _ _ _ _) => [G|] //= [Er].
have ok g : List.In g pg -> strict_ok g.
  move=> /In_map_iff [h /wf [[u uU] nU] ->]; rewrite /strict_ok /= u /=.
  by case: (pU h) uU nU => // U uU _; apply/unitarybP.
have [ok' gen'] := strict_generators ok.
have o : enumeration ord.
  by move=> s x; split; apply: Permutation_in; [|apply: Permutation_sym].
have n1 : (0 < size (set_of (@pge_eq F d n) pg))%N.
  case: (points syms) n0 @pg {EG} ok ok' gen' {wf} => // g s _ pg ok ok' gen'.
  by have [|g' ] := gen' (set_strict g); [left|case: (set_of _ _)].
have [sG _ gG] := generate_strict_group o ok' n1 EG.
have sG' : symmetry_group (ord G).
  have I x : List.In x (ord G) <-> List.In x G by apply: o.
  case: sG => h1 h2 h3 h4 h5; split.
  - by move=> g /I; apply: h1.
  - by move=> g h /I gG' /I hG; apply: h2.
  - apply: distinct_perm h3; [exact: phase_same_sym|exact: Permutation_sym].
  - by move=> g h /I gG' /I hG; have [k /I kG e] := h4 g h gG' hG; exists k.
  - by have := Permutation_length (op G) => E; rewrite -[size _]E in h5.
have Ht x : List.In x fam -> good x.
  move=> xf; suff [] : good x /\ hermitian_value kone ev x by [].
  exact: (@C42_terms_hermitian F d n P pone pmul pc K kone Mom mom Site ev hopkey kc kcK ev_kc ns hops syms norbs onsites fam Ef).
move: Er; case Es: (symmetrized _ _ _ _ _ _ _) => [fam2|] //= Er.
have [ind2 g2 avg] : [/\ findep kone fam2, forall m, List.In m fam2 -> good m &
    forall m, List.In m fam -> vspan fam2 (average (ord G) (value m))].
  move: Es; rewrite /symmetrized; case E1: (mapM _ fam) => [terms|] //= Ed.
  set l := [seq t <- _ | _] in Ed.
  have T x : List.In x fam -> exists2 s, List.In s terms & good s /\ value s =1 average (ord G) (value x).
    move=> xf; have [s st es] := mapM_In' E1 xf; have [s' [es' gs Vs]] := symmetrize_value AP sG' (Ht x xf).
    by move: es; rewrite es' => -[e]; exists s => //; rewrite -e.
  have gl x : List.In x l -> good x.
    move=> /In_filter [/In_map_iff [t tt ->] _]; have [y yf ey] := mapM_In E1 tt.
    have [s' [es' gs Vs]] := symmetrize_value AP sG' (Ht y yf).
    by move: ey; rewrite es' => -[<-]; case: (around_id ev gs).
  have [r [er fr gr sr]] := C38_remove_duplicates CS gl.
  move: Ed; rewrite er => -[<-]; split=> // m mf.
  have [s st [gs Vs]] := T m mf; have [ga Va] := around_id ev gs.
  case z: (is_zero_model (around id s)).
    by apply: vspan0 => a; rewrite -Vs -Va; apply: zero_model_value.
  apply: eq_vspan (_ : value (around id s) =1 _) _ => [a|]; first by rewrite Va Vs.
  apply: vspan_fspan => //; apply/sr; apply: fspan_member; apply/In_filter; rewrite z; split=> //.
  by apply/In_map_iff; exists s.
have [indr sub] : (~~ prettify -> findep kone res) /\ forall m, List.In m fam2 -> vspan res (value m).
  move: Er; case: (prettify) => [Ep|[<-]]; last by split=> // m; apply: vspan_mem.
  have [gr sr] := kp _ _ g2 Ep; split=> // m m2; have gm := g2 m m2.
  apply: vspan_fspan => //; apply: sr => //; exact: fspan_member.
split=> // f vf inv.
have fix_G g : List.In g (ord G) -> moved g f =1 f.
  move=> gO; apply: (generated_moved o ok' _ EG) ((o G g).1 gO) => {gO}g gs a.
  have /In_map_iff [h hp ->] := In_set_of gs.
  rewrite -[RHS](inv h hp a); apply: moved_phase; apply: phase_same_sym; exact: pge_phase_same.
apply: eq_vspan (average_fixed (sg_inhabited sG') fix_G) _.
by apply: vspan_trans sub; apply: vspan_average vf.
Qed.

(* the two together: an invariant sum of terms of the hoppings is in the span of the result *)
Corollary C42_all_models_partial ord fuel pretty hops syms (norbs : seq (Site * nat)) onsites prettify res
    (l : seq (Site * Site * 'rV[F]_d * 'M[C]_n.+1)) :
  (forall s, Permutation (ord s) s) -> exact_complement cs -> keeps_span pretty ->
  (0 < size (points syms))%N -> (forall g, List.In g (points syms) -> pge_wf g /\ pU g <> None) ->
  conts syms = [::] ->
  bloch_family kone mom hopkey kc papply ns cs ord fuel id pretty hops syms norbs onsites true prettify = Some (Ok res) ->
  (forall a b vec A, List.In (a, b, vec, A) l -> used hops norbs onsites (a, b, vec) /\ connects norbs a b A) ->
  let f x := \sum_(t <- l) hop_value t.1.2 t.2 x in
  (forall g, List.In g (points syms) -> moved g f =1 f) -> vspan res f.
Proof.
move=> op CS kp n0 wf E0 E H f inv.
case Ef: (all_terms kone mom hopkey kc ns hops syms norbs onsites) => [fam|e]; last by move: E; rewrite /bloch_family Ef.
have [_ comp] := C42_complete_partial op CS kp n0 wf Ef E; apply: comp => // {inv}.
have [_ T] := C42_terms_span E0 Ef.
rewrite {}/f; elim: l H => [|[[[a b] vec] A] l IH] H; first by apply: vspan0 => x; rewrite big_nil.
have [u c] := H a b vec A (or_introl erefl).
apply: (vspan_comb (r := 1) (T _ _ _ _ u c) (IH _)) => [a' b' vec' A' h|x]; first by apply: H; right.
by rewrite big_cons scale1r.
Qed.
End Terms.

(* two sites with 1 and 2 orbitals *)
Example C42_sites : [seq site_of (odict [:: (7, 3); (8, 2); (7, 1)]%N) i | i <- iota 0 4] = [:: Some 7; Some 8; Some 8; None]%N.
Proof. by []. Qed.

Print Assumptions C42_norbs.
Print Assumptions C42_terms_span.
Print Assumptions C42_terms_conserved.
Print Assumptions C42_complete_partial.
Print Assumptions C42_all_models_partial.
