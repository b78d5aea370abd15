(* C63-C66: gcd, the converter table, monomials. *)
From mathcomp Require Import all_ssreflect all_algebra.
From Verif Require Import Prelude KwantContinuum.

Set Implicit Arguments.
Unset Strict Implicit.
Unset Printing Implicit Defensive.
Import Order.TTheory GRing.Theory Num.Theory.
Local Open Scope ring_scope.

(* ---- C63 ---- *)
Lemma pymodP b a : a != 0 -> exists q, b = q * a + pymod b a /\ (absz (pymod b a) < absz a)%N.
Proof.
move=> a0; rewrite /pymod; case: ifP => ap.
  exists (divz b a); split; first exact: divz_eq.
  by rewrite -ltz_nat (gez0_abs (modz_ge0 b a0)) abszE ltz_mod.
have an : - a != 0 by rewrite oppr_eq0.
exists (divz (- b) (- a)); split.
  by rewrite -[LHS]opprK {1}(divz_eq (- b) (- a)) opprD mulrN opprK.
by rewrite abszN -[absz a]abszN -ltz_nat (gez0_abs (modz_ge0 (- b) an)) abszE ltz_mod.
Qed.

Lemma dvdz_plus (x a b : int) : (x %| a)%Z -> (x %| b)%Z -> (x %| a + b)%Z.
Proof. by case/dvdzP => u -> /dvdzP [v ->]; apply/dvdzP; exists (u + v); rewrite mulrDl. Qed.

(* the common divisors of a and b *)
Definition common (g : int) (s : seq int) : bool := all (fun x => (g %| x)%Z) s.

Lemma gcd_innerP fuel a b : (absz a < fuel)%N ->
  exists2 g, gcd_inner fuel a b = Some g & forall x, (x %| g)%Z = (x %| a)%Z && (x %| b)%Z.
Proof.
elim: fuel a b => // f IH a b af /=; case: eqP => [->|/eqP a0].
  by exists b => // x; rewrite dvdz0.
have [q [E lt]] := pymodP b a0.
have [|g -> gP] := IH (pymod b a) a; first exact: leq_trans lt _.
exists g => // x; rewrite gP [RHS]andbC; apply/andP/andP => -[xa xb]; split=> //.
- by rewrite E; apply: dvdz_plus => //; apply: dvdz_mull.
- have -> : pymod b a = b - q * a by rewrite {2}E [q * a + _]addrC addrK.
  by apply: dvdz_plus => //; rewrite -mulNr; apply: dvdz_mull.
Qed.

Lemma gcd_outerP fuel b L : (forall x, x \in L -> absz x < fuel)%N ->
  exists2 g, gcd_outer fuel b L = Some g & forall x, (x %| g)%Z = (x %| b)%Z && common x L.
Proof.
elim: L b => [|a L IH] b H; first by exists b => // x; rewrite andbT.
have [|g1 /= -> g1P] := gcd_innerP b (H a _); first by rewrite inE eqxx.
have [|g -> gP] := IH g1; first by move=> x xL; apply: H; rewrite inE xL orbT.
by exists g => // x; rewrite gP g1P /= andbA [(x %| a)%Z && _]andbC.
Qed.

Theorem C63_gcd (args : seq int) : (1 < size args)%N ->
  exists fuel0, forall fuel, (fuel0 <= fuel)%N -> exists g, 
  [/\ gcd fuel args = Some (Ok g), 0 <= g, forall x, x \in args -> (g %| x)%Z &
      forall h, (forall x, x \in args -> (h %| x)%Z) -> (h %| g)%Z].
Proof.
move=> sz; exists (\max_(x <- args) absz x).+1 => fuel fu.
have bnd x : x \in args -> (absz x < fuel)%N.
  by move=> xs; apply: leq_trans fu; rewrite ltnS; apply: (@leq_bigmax_seq _ args xpredT absz).
rewrite /gcd; have : rev args =i args by move=> x; rewrite mem_rev.
have := size_rev args; case: (rev args) => [|b [|a L]] /=; try by move=> s; rewrite -s in sz.
move=> _ E; have [|g EG gP] := @gcd_outerP fuel b (a :: L).
  by move=> x xL; apply: bnd; rewrite -E inE xL orbT.
have gP' x : (x %| `|g|)%Z = common x args.
  have -> : (x %| `|g|)%Z = (x %| g)%Z by rewrite !dvdzE -abszE absz_id.
  rewrite gP -[RHS](eq_all_r E) /=.
  by rewrite andbA.
move: EG => /= EG; exists `|g|; rewrite EG; split=> //.
- by move=> x xs; have := gP' `|g|; rewrite dvdzz => /esym /allP; apply.
- by move=> h H; rewrite gP'; apply/allP.
Qed.

(* with a single argument the sign is kept; without arguments NameError is raised *)
Theorem C63_short fuel (x : int) : gcd fuel [:: x] = Some (Ok x) /\ gcd fuel [::] = Some (Err NameError).
Proof. by []. Qed.
Example C63_negative : gcd 30 [:: -12; 18; -27]%Z = Some (Ok 3%Z).
Proof. by vm_compute. Qed.

(* ---- C64 ---- *)
Section Converter.
Variables (K : eqType) (V : Type) (klist : K) (new : V).
Local Notation table := (table K V).
Local Notation sympify := (sympify klist new).

Lemma upd_same (t : table) v w : upd klist (upd klist t v) w =1 upd klist t w.
Proof. by move=> k; rewrite /upd; case: eqP. Qed.
Lemma upd_id (t : table) : upd klist t (t klist) =1 t.
Proof. by move=> k; rewrite /upd; case: eqP => [->|]. Qed.

(* the block raises from one of the statements after the converter is set, or not at all *)
Definition raises_late (r : option nat) : bool := if r is Some r then (2 <= r)%N else true.
Fixpoint late (a : arg) : bool :=
  match a with
  | Basic _ => true
  | Plain _ l r => raises_late r &&
      (fix lates l := match l with [::] => true | inl _ :: l' => lates l' | inr b :: l' => late b && lates l' end) l
  end.

Lemma try_block_state (r : option nat) (t : table) : raises_late r ->
  exists2 s, foldl (fun s i => try_step klist new i s) (Local t None) (iota 0 (if r is Some r then minn r 5 else 5)) = s &
    ltable s =1 upd klist t (Some new) /\ stored s = t klist.
Proof.
case: r => [[|[|[|[|[|[|r]]]]]]|] //= _; try by eexists; [reflexivity|split=> //=; apply: upd_same].
Qed.
Lemma try_block_table (r : option nat) (t : table) : raises_late r -> (try_block klist new r t).1 =1 t.
Proof.
move=> lr; have [s Es [ts ss]] := try_block_state t lr; rewrite /try_block Es /finally ss.
case tk: (t klist) => [v|] /= k; rewrite -?tk /upd; case: eqP => [->|nk]; rewrite ?tk //.
- by rewrite ts /upd; case: eqP nk.
- by rewrite ts /upd; case: eqP nk.
Qed.

(* nothing is raised that the body did not raise *)
Lemma try_block_outcome r (t : table) : raises_late r ->
  (try_block klist new r t).2 = (if r is Some r then (r < 5)%N else false).
Proof.
move=> lr; have [s Es [ts ss]] := try_block_state t lr; rewrite /try_block Es /finally ss.
by case: (t klist) => [v|] //=; rewrite ts /upd eqxx.
Qed.

(* After every call, whether it returns or raises, the table is as before. *)
Fixpoint C64_ind (P : arg -> Prop) (HB : forall e, P (Basic e))
    (HP : forall k l r, (forall b, List.In (inr b) l -> P b) -> P (Plain k l r)) (a : arg) : P a :=
  match a with
  | Basic e => HB e
  | Plain k l r => HP k l r
     ((fix go l : forall b, List.In (inr b) l -> P b :=
       match l return forall b, List.In (inr b) l -> P b with
       | [::] => fun b H => match H with end
       | x :: l' => fun b H => match H with
           | or_introl e => match e in _ = y return (match y with inr b => P b | inl _ => True end) with
                            | erefl => match x return match x with inr b => P b | inl _ => True end with
                                       | inl _ => I | inr c => C64_ind HB HP c end end
           | or_intror H' => go l' b H' end
       end) l)
  end.

Theorem C64_restored (a : arg) (t : table) : late a -> (sympify a t).1 =1 t.
Proof.
elim/C64_ind: a t => [e|k l r IH] t //= /andP[rl ll]; case: ifP => // _.
have Hv : forall t, (values sympify l t).1 =1 t.
  move: IH ll; clear -K; elim: l => [|[e|b] l IHl] //= IH ll t.
    by case: (e) => //; apply: IHl => // b bl; apply: IH; right.
  case/andP: ll => lb ll; have := IH b (or_introl erefl) t lb.
  case: (sympify b t) => t' [] //= tt k.
  by rewrite IHl // => c cl; apply: IH; right.
have := Hv t; case: (values sympify l t) => t' [] //= tt k'.
by rewrite try_block_table.
Qed.

(* an asynchronous exception (KeyboardInterrupt) that arrives in the try block before the entry has been popped makes
   the finally clause delete an entry that was there *)
Theorem C64_async_refuted (t : table) (v : V) : t klist = Some v ->
  (sympify (Plain true [::] (Some 0%N)) t).1 klist = None.
Proof. by move=> tv; rewrite /= /upd eqxx. Qed.

(* ---- C65 ---- *)
Theorem C65_threads_refuted (t : table) (new2 : V) : t klist = None ->
  exists sched a b t',
    [/\ run_threads klist new new2 sched (start V) (start V) t = (a, b, t'), pc a = 6%N /\ pc b = 6%N, ~~ tfailed a /\ ~~ tfailed b &
        t' klist = Some new].
Proof.
move=> t0; exists [:: false; false; true; true; false; false; false; false; true; true; true; true].
rewrite /= /upd ?eqxx /= t0 /= ?eqxx /=; do 3!eexists; split; first by reflexivity.
- by [].
- by [].
- by rewrite /= /upd eqxx.
Qed.

(* the same with an entry present: it is lost and the converter of the other thread stays *)
Theorem C65_entry_lost_refuted (t : table) (new2 v : V) : t klist = Some v ->
  exists sched a b t',
    [/\ run_threads klist new new2 sched (start V) (start V) t = (a, b, t'), pc a = 6%N /\ pc b = 6%N &
        t' klist = Some new].
Proof.
move=> t0; exists [:: false; false; true; true; false; false; false; false; true; true; true; true].
rewrite /= /upd ?eqxx /= t0 /= ?eqxx /=; do 3!eexists; split; first by reflexivity.
- by [].
- by rewrite /= /upd eqxx.
Qed.

(* one thread after the other is harmless *)
Theorem C65_sequential (t : table) (new2 : V) :
  exists a b t', run_threads klist new new2 (nseq 6 false ++ nseq 6 true) (start V) (start V) t = (a, b, t') /\ t' =1 t.
Proof.
case tk: (t klist) => [v|]; do 4!rewrite /= /thread_step /finally /= /upd ?eqxx /= ?tk /= ?eqxx /=;
  do 3!eexists; split; try reflexivity;
  by move=> k /=; rewrite /upd ?eqxx; case: eqP => [->|] //=; rewrite tk.
Qed.
End Converter.

(* a nested call: locals contains a string and an array; the inner call raises *)
Example C64_nested (K : eqType) (V : Type) (klist : K) (new old : V) (t : table K V) : t klist = Some old ->
  let a := Plain true [:: inl false; inr (Plain true [::] (Some 3%N))] None in
  (sympify klist new a t).2 = true /\ (sympify klist new a t).1 klist = Some old.
Proof. by move=> tk; split; [rewrite /= /try_block /= /finally /= tk|rewrite C64_restored]. Qed.

(* ---- C66 ---- *)
Section Monomials.
Variables (factor : Type) (B : eqType) (base_of : factor -> B) (Key : eqType) (mul_key : seq factor -> Key).
Local Notation coeff := (coeff factor).

Section Value.
Variables (R : ringType) (ev : factor -> R) (evk : Key -> R).
Hypothesis evkM : forall l, evk (mul_key l) = \prod_(f <- l) ev f.
(* the values of a product of factors, of a sum of such products *)
Definition evp (l : seq factor) : R := \prod_(f <- l) ev f.
Definition evc (c : coeff) : R := \sum_(l <- c) evp l.
(* the value of a dictionary: the sum of key * coefficient *)
Definition evd (o : seq (Key * coeff)) : R := \sum_(kv <- o) evk kv.1 * evc kv.2.

Lemma add_to_sum A (plus : A -> A -> A) (f : Key -> A -> R) (o : seq (Key * A)) k v :
  (forall k a b, f k (plus a b) = f k a + f k b) ->
  \sum_(kv <- add_to plus o k v) f kv.1 kv.2 = \sum_(kv <- o) f kv.1 kv.2 + f k v.
Proof.
move=> fD; elim: o => [|[k' v'] o IH] /=; first by rewrite big_seq1 big_nil add0r.
case: eqP => [<-|_]; first by rewrite !big_cons /= fD addrAC.
by rewrite !big_cons IH addrA.
Qed.

Lemma evcD c c' : evc (c ++ c') = evc c + evc c'.
Proof. exact: big_cat. Qed.
End Value.

Section Commutative.
(* values in any ring; powers of generators commute with the other factors.  The latter need not commute with each other. *)
Variables (R : ringType) (ev : factor -> R) (evk : Key -> R) (gens : seq B).
Hypothesis evkM : forall l, evk (mul_key l) = \prod_(f <- l) ev f.
Hypothesis central : forall f f', base_of f \in gens -> base_of f' \notin gens -> ev f * ev f' = ev f' * ev f.
Local Notation em := (expression_monomials base_of mul_key).

Lemma evp_split l : evp ev l = evp ev [seq f <- l | base_of f \in gens] * evp ev [seq f <- l | base_of f \notin gens].
Proof.
rewrite /evp; elim: l => [|f l IH] /=; first by rewrite !big_nil mulr1.
rewrite big_cons IH; case e: (_ \in _); rewrite /= !big_cons !mulrA //; congr (_ * _).
elim: l {IH} => [|g l IH] /=; first by rewrite big_nil mulr1 mul1r.
case eg: (_ \in _) => //; rewrite big_cons mulrA -(central eg) ?e // -!mulrA; congr (_ * _); exact: IH.
Qed.

Theorem C66_lossless terms : evd ev evk (em terms gens) = \sum_(l <- terms) evp ev l.
Proof.
rewrite /expression_monomials; suff H o : evd ev evk (foldl (fun output summand =>
    add_to cat output (mul_key [seq f <- summand | base_of f \in gens]) [:: [seq f <- summand | base_of f \notin gens]]) o terms)
    = evd ev evk o + \sum_(l <- terms) evp ev l.
  by rewrite H /evd big_nil add0r.
elim: terms o => [|l terms IH] o /=; first by rewrite big_nil addr0.
rewrite IH big_cons addrA; congr (_ + _).
rewrite /evd (add_to_sum (f := fun k c => evk k * evc ev c)) => [|k a b]; last by rewrite evcD mulrDr.
by rewrite evkM /evc big_seq1 -/(evp ev _) -evp_split.
Qed.

Theorem C66_matrix n1 n2 (expr : 'I_n1 -> 'I_n2 -> seq (seq factor)) i j :
  \sum_(kv <- matrix_monomials base_of mul_key expr gens) evk kv.1 * evc ev (kv.2 i j) = \sum_(l <- expr i j) evp ev l.
Proof.
pose f k (v : 'I_n1 -> 'I_n2 -> coeff) := evk k * evc ev (v i j).
have fD k a b : f k (plus_mx a b) = f k a + f k b by rewrite /f evcD mulrDr.
have inner (i' : 'I_n1) (j' : 'I_n2) (l : seq (Key * coeff)) o : \sum_(kv <- foldl (fun output kv => add_to (@plus_mx _ n1 n2) output kv.1 (add_entry i' j' kv.2)) o l) f kv.1 kv.2
    = \sum_(kv <- o) f kv.1 kv.2 + (if (i' == i) && (j' == j) then evd ev evk l else 0).
  elim: l o => [|kv l IH] o /=; first by rewrite /evd big_nil; case: ifP; rewrite addr0.
  rewrite IH add_to_sum // -addrA; congr (_ + _); rewrite /f /add_entry (eq_sym i) (eq_sym j).
  by case: ifP => _; rewrite /evd ?big_cons ?addr0 // /evc big_nil mulr0.
have outer (s : seq ('I_n1 * 'I_n2)) o : \sum_(kv <- foldl (fun output ij =>
    foldl (fun output kv => add_to (@plus_mx _ n1 n2) output kv.1 (add_entry ij.1 ij.2 kv.2))
      output (em (expr ij.1 ij.2) gens)) o s) f kv.1 kv.2 =
    \sum_(kv <- o) f kv.1 kv.2 + \sum_(ij <- s | ij == (i, j)) evd ev evk (em (expr ij.1 ij.2) gens).
  elim: s o => [|[i' j'] s IH] o /=; first by rewrite big_nil addr0.
  rewrite IH inner -addrA big_cons xpair_eqE; congr (_ + _).
  by case: ifP => _; rewrite ?add0r.
rewrite /matrix_monomials -/f outer big_nil add0r.
have u : uniq [seq (a, b) | a <- enum 'I_n1, b <- enum 'I_n2].
  by apply: allpairs_uniq; rewrite ?enum_uniq // => -[? ?] [? ?].
rewrite -big_filter (_ : [seq x <- _ | _] = [:: (i, j)]) ?big_seq1 ?C66_lossless //.
have ij : (i, j) \in [seq (a, b) | a <- enum 'I_n1, b <- enum 'I_n2].
  by apply/allpairsP; exists (i, j); rewrite !mem_enum.
apply: perm_small_eq => //; apply: uniq_perm; rewrite ?filter_uniq // => x.
by rewrite mem_filter inE andb_idr // => /eqP ->.
Qed.
End Commutative.

(* keys are distinct products of powers of generators, coefficients do not contain any *)
Theorem C66_separated terms (gens : seq B) :
  let o := expression_monomials base_of mul_key terms gens in
  uniq (map fst o) /\
  forall kv, List.In kv o ->
    (exists2 l, kv.1 = mul_key l & all (fun f => base_of f \in gens) l) /\
    all (all (fun f => base_of f \notin gens)) kv.2.
Proof.
rewrite /=; pose good (o : seq (Key * coeff)) := uniq (map fst o) /\ forall kv, List.In kv o ->
    (exists2 l, kv.1 = mul_key l & all (fun f => base_of f \in gens) l) /\ all (all (fun f => base_of f \notin gens)) kv.2.
rewrite -/(good _).
have add o k v : good o -> (exists2 l, k = mul_key l & all (fun f => base_of f \in gens) l) -> all (all (fun f => base_of f \notin gens)) v ->
    good (add_to cat o k v).
  move=> [u g] gk gv.
  split.
    clear g; elim: o u => [|[k' v'] o IH] //= /andP[nk u]; case: eqP => [_|nkk] /=; first by rewrite nk u.
    rewrite IH // andbT; apply/negP => H; case/negP: nk.
    move: H; clear -nkk; elim: o => [|[k2 v2] o IH] /=; first by rewrite inE => /eqP e; case: nkk.
    by case: (k2 == k) => //=; rewrite !inE => /orP[->|/IH ->]; rewrite ?orbT.
  elim: o {u} g => [|[k' v'] o IH] g /=; first by move=> kv [<-|].
  case: eqP => [e|_] kv /= [<-|H].
  - have [g1 g2] := g (k', v') (or_introl erefl); split=> //=.
    by rewrite all_cat g2.
  - by apply: g; right.
  - by apply: g; left.
  - by apply: IH H => x xo; apply: g; right.
rewrite /expression_monomials; have : good [::] by [].
elim: terms [::] => [|l terms IH] o go //=; apply: IH; apply: add => //.
- by exists [seq f <- l | base_of f \in gens] => //; apply: filter_all.
- by rewrite /= andbT; apply: filter_all.
Qed.
End Monomials.

(* with generators which do not commute with the rest the order of the product is lost: in [[k * A * k]] the key is [[k * k]],
   the coefficient [[A]], and [[k * k * A]] is a different product *)
Theorem C66_noncommuting_refuted : exists (R : ringType) (ev : bool -> R),
  let evk (l : seq bool) := \prod_(f <- l) ev f in
  let terms := [:: [:: true; false; true]] in
  evd ev evk (expression_monomials id id terms [:: true]) <> \sum_(l <- terms) evp ev l.
Proof.
exists [ringType of 'M[int]_2], (fun b => \matrix_(i, j) (if b then (val i <= val j)%N%:R else (val j <= val i)%N%:R)).
rewrite /= /evd /evc /evp /expression_monomials /= !(big_seq1, big_cons, big_nil) /= !mulr1.
by move/matrixP => /(_ 1 1); rewrite !(mxE, big_ord_recl, big_ord0) /=.
Qed.

(* A * (x**2 + y) + B * x, generators x and y; factors are (base, exponent) *)
Example C66_docstring :
  let terms := [:: [:: (0, 1); (2, 2)]; [:: (0, 1); (3, 1)]; [:: (1, 1); (2, 1)]; [:: (4, 1); (2, 2)]]%N in
  expression_monomials fst id terms [:: 2; 3]%N =
    [:: ([:: (2, 2)], [:: [:: (0, 1)]; [:: (4, 1)]]); ([:: (3, 1)], [:: [:: (0, 1)]]); ([:: (2, 1)], [:: [:: (1, 1)]])]%N.
Proof. by []. Qed.

Print Assumptions C63_gcd.
Print Assumptions C64_restored.
Print Assumptions C65_threads_refuted.
Print Assumptions C66_lossless.
Print Assumptions C66_matrix.
Print Assumptions C66_separated.
Print Assumptions C66_noncommuting_refuted.
