(* C67, C68: memoised functions *)
From mathcomp Require Import all_ssreflect all_algebra.
From Verif Require Import Prelude Tolerance PGERep Cache.
Set Implicit Arguments.
Unset Strict Implicit.
Unset Printing Implicit Defensive.
Import Order.Theory GRing.Theory Num.Theory.
Local Open Scope ring_scope.

Section Cache.
Variables (A V : Type) (same : A -> A -> bool) (maxsize : option nat) (f : A -> res V).
Local Notation call := (call same maxsize f).
Local Notation calls := (calls same maxsize f).
Local Notation after := (after same maxsize f).

(* every entry is a value computed earlier for an argument that is the same *)
Definition sound (c : cache A V) := forall a v, List.In (a, v) c -> f a = Ok v.

Lemma lookup_sound c a v : sound c -> lookup same c a = Some v -> exists2 a', same a' a & f a' = Ok v.
Proof.
elim: c => [|[a' v'] c IH] //= s; case: ifP => [sa [<-]|_].
  by exists a' => //; apply: s; left.
by apply: IH => b w H; apply: s; right.
Qed.
Lemma touch_sound c a : sound c -> sound (touch same c a ++ forget same c a).
Proof.
elim: c => [|[a' v'] c IH] s //=; case: ifP => // _ b w /In_cat [H|[H|H]].
- by apply: IH (proj2 (In_cat _ _ _) (or_introl H)) => b' w' H'; apply: s; right.
- by apply: s; left.
- by apply: IH (proj2 (In_cat _ _ _) (or_intror H)) => b' w' H'; apply: s; right.
Qed.
Lemma call_sound c a : sound c -> sound (call c a).1.
Proof.
move=> s; rewrite /Cache.call; case el : (lookup _ _ _) => [v|] /=; first exact: touch_sound.
case ef : (f a) => [v|e] //=; have s' : sound ((a, v) :: c) by move=> b w /= [[<- <-]|/s].
rewrite /trim; case: maxsize => // m b w H; apply: s'; move: H; clear.
by elim: m ((a, v) :: c) => [|m IH] [|x l] //= [->|/IH]; [left|right].
Qed.

(* the history does not matter as long as the function does not distinguish arguments that are the same *)
Theorem C67_history (l : seq A) : (forall a b, same a b -> f a = f b) -> calls [::] l = map f l.
Proof.
move=> compat; have : sound [::] by [].
elim: l [::] => [|a l IH] c s //=.
case ec : (call c a) => [c' r] /=; rewrite IH; first last.
  by rewrite -[c']/((c', r).1) -ec; apply: call_sound.
congr (_ :: _); move: ec; rewrite /Cache.call.
case el : (lookup _ _ _) => [v|]; last by case: (f a) => [v|e] [_ <-].
by case=> _ <-; have [a' sa' fa'] := lookup_sound s el; rewrite -(compat _ _ sa') fa'.
Qed.

(* what is returned is always a value of the function for an argument that is the same *)
Theorem C67_value c a v : sound c -> (call c a).2 = Ok v -> f a = Ok v \/ exists2 a', same a' a & f a' = Ok v.
Proof.
move=> s; rewrite /Cache.call; case el : (lookup _ _ _) => [w|] /=.
  by case=> <-; right; apply: lookup_sound el.
by case: (f a) => [w|e] //= [->]; left.
Qed.

(* exceptions are not remembered: they are raised again for the same argument *)
Theorem C67_raises c a e : sound c -> (call c a).2 = Err e -> f a = Err e /\ (call c a).1 = c.
Proof.
by move=> s; rewrite /Cache.call; case el : (lookup _ _ _) => [w|] //=; case: (f a) => [w|e'] //= [->].
Qed.

(* at most maxsize entries are kept *)
Theorem C67_capacity m l : maxsize = Some m -> (size (after [::] l) <= m)%N.
Proof.
move=> em; have : (size ([::] : cache A V) <= m)%N by [].
elim: l [::] => [|a l IH] c sc //=; apply: IH; rewrite /Cache.call.
case el : (lookup _ _ _) => [v|] /=.
  suff -> : size (touch same c a ++ forget same c a) = size c by [].
  elim: c el {sc} => [|[a' v'] c IH'] //=; case: ifP => //= _ /IH' <-; rewrite !size_cat /=; exact: addnS.
case: (f a) => [v|e] //=; rewrite /trim em size_take; case: ifP => // h.
by rewrite leqNgt h.
Qed.
End Cache.

(* ---- the cached functions of groups.py ---- *)
Section Groups.
Variables (F : realFieldType) (E : eqType) (fl : E -> F) (rnd : F -> int) (rtol atol : F) (n : nat).
Hypothesis rnd_int : forall z : int, rnd z%:~R = z.
Hypothesis tols : 0 <= rtol /\ 0 <= atol.
Local Notation rep := (rep F E n).
Local Notation init_R := (init_R fl rnd rtol atol).
Local Notation make_int := (make_int fl rnd rtol atol).
Local Notation rep_same := (@rep_same F E fl n).

Lemma close_refl (X : 'M[F]_n) : aclose (fun x : F => `|x|) rtol atol X X.
Proof.
apply/forallP => i; apply/forallP => j; rewrite subrr normr0; case: tols => r a.
rewrite addr_ge0 // mulr_ge0 // le_maxr; apply/orP; left; rewrite /amax.
by elim/big_ind: _ => // [x y x0 _|k _]; rewrite ?le_maxr ?x0 //; elim/big_ind: _ => // x y x0 _; rewrite le_maxr x0.
Qed.
Lemma map_rnd (X : 'M[int]_n) : map_mx rnd (map_mx (@intmul F 1) X) = X.
Proof. by apply/matrixP => i j; rewrite !mxE rnd_int. Qed.

(* _make_int does not distinguish an integer array from a float array with the same entries *)
Lemma make_int_same r s : rep_same r s -> make_int r = make_int s.
Proof.
have mi (X : 'M_n) : make_int (RInt _ _ X) = RInt _ _ X by rewrite /PGERep.make_int /as_float map_rnd close_refl.
have mf (X : 'M_n) : make_int (RFlt _ (map_mx intr X)) = RInt _ _ X by rewrite /PGERep.make_int /= map_rnd close_refl.
case: r s => [X|X|X] [Y|Y|Y] //= /eqP e.
- by rewrite !mi; congr (RInt _ _ _); rewrite -(map_rnd X) e map_rnd.
- by rewrite mi -e mf.
- by rewrite e mf mi.
- by rewrite e.
- by rewrite e.
Qed.
Theorem C67_make_int maxsize (l : seq rep) :
  calls rep_same maxsize (fun r => Ok (make_int r)) [::] l = map (fun r => Ok (make_int r)) l.
Proof. by apply: C67_history => r s /make_int_same ->. Qed.

(* the R of elements are normalised by __init__: there, arguments which compare equal are equal *)
Lemma init_same r s : rep_same (init_R r) (init_R s) -> init_R r = init_R s.
Proof.
have nf (r' : rep) (X : 'M_n) : init_R r' = RFlt _ (map_mx intr X) -> False.
  case: r' => [Y|Y|Y] //=; rewrite /PGERep.make_int /=; case: ifP => // nc [e]; subst.
  by move: nc; rewrite map_rnd close_refl.
case er : (init_R r) => [X|X|X]; case es : (init_R s) => [Y|Y|Y] //= /eqP e.
- by congr (RInt _ _ _); rewrite -(map_rnd X) e map_rnd.
- by case: (nf s X); rewrite e.
- by case: (nf r Y); rewrite -e.
- by rewrite e.
- by rewrite e.
Qed.
(* hence _mul, _inv and _eq, whatever they compute, are not changed by their cache *)
Theorem C67_normalised maxsize V (f : rep -> rep -> res V) (l : seq (rep * rep)) :
  let same (x y : rep * rep) := rep_same x.1 y.1 && rep_same x.2 y.2 in
  let args := [seq (init_R x.1, init_R x.2) | x <- l] in
  calls same maxsize (fun x => f x.1 x.2) [::] args = [seq f x.1 x.2 | x <- args].
Proof.
rewrite /=; set same := fun _ _ => _; set g := fun _ => _; set args := map _ l.
(* restrict the comparison to normalised arguments *)
pose norm (x : rep * rep) := exists y : rep * rep, x = (init_R y.1, init_R y.2).
have na : forall x, List.In x args -> norm x by move=> x /In_map_iff [y _ ->]; exists y.
clearbody args; pose good (c : cache (rep * rep) V) := forall a v, List.In (a, v) c -> norm a /\ g a = Ok v.
have : good [::] by [].
elim: args na [::] => [|a l' IH] na c gc //=.
have aa : norm a by apply: na; left.
have sg a' : norm a' -> same a' a -> a' = a.
  by case: aa => y -> -[z ->] /andP[/= /init_same -> /init_same ->].
have lk v : lookup same c a = Some v -> g a = Ok v.
  elim: c gc => [|[a' v'] c IHc] //= gc; case: ifP => [sa [<-]|_].
    by have [na' <-] := gc a' v' (or_introl erefl); rewrite (sg _ na' sa).
  by apply: IHc => b w H; apply: gc; right.
case ec : (call same maxsize g c a) => [c' r] /=; rewrite IH; first last.
- move: ec; rewrite /Cache.call; case el : (lookup _ _ _) => [v|].
    case=> <- _ b w H; apply: gc; move: H; clear; elim: c => [|[a' v'] c IHc] //=.
    by case: ifP => // _ /In_cat [H|[H|H]]; [right; apply/IHc/In_cat; left|left|right; apply/IHc/In_cat; right].
  case ef : (g a) => [v|e] [<- _] // b w H.
  have : List.In (b, w) ((a, v) :: c).
    move: H; rewrite /trim; case: (maxsize) => // m; clear.
    by elim: m ((a, v) :: c) => [|m IHm] [|x l] //= [->|/IHm]; [left|right].
  by case=> [[<- <-]|/gc].
- by move=> x H; apply: na; right.
congr (_ :: _); move: ec; rewrite /Cache.call; case el : (lookup _ _ _) => [v|].
  by case=> _ <-; rewrite (lk _ el).
by case: (g a) => [v|e] [_ <-].
Qed.
End Groups.

(* ... but not for arguments of any type: _eq compares integer arrays exactly and other arrays with a tolerance.  Called with a float
   array first, the cached answer is returned for the integer array with the same entries. *)
Theorem C67_raw_refuted (F : realFieldType) (E : eqType) (fl : E -> F) (rtol atol : F) (N : int) maxsize :
  0 <= atol -> 0 < N -> 1 <= rtol * N%:~R -> maxsize <> Some 0%N ->
  let same (x y : rep F E 1 * rep F E 1) := rep_same fl x.1 y.1 && rep_same fl x.2 y.2 in
  let f (x : rep F E 1 * rep F E 1) := Ok (rep_eq fl rtol atol x.1 x.2) in
  let a := const_mx N in let b := const_mx (N + 1) in
  let x := (RFlt E (map_mx intr a), RInt F E b) in let y := (RInt F E a, RInt F E b) in
  calls same maxsize f [::] [:: y] = [:: Ok false] /\ calls same maxsize f [::] [:: x; y] = [:: Ok true; Ok true].
Proof.
move=> a0 N0 hN m0; set same := fun _ _ => _; set f := fun _ => _; cbv zeta.
set a := const_mx N; set b := const_mx (N + 1); set x := (RFlt E _, _); set y := (RInt F E a, _).
have fy : f y = Ok false.
  rewrite /f /=; congr Ok; apply/negbTE/negP => /eqP/matrixP/(_ ord0 ord0); rewrite !mxE.
  by move/eqP; rewrite -subr_eq0 opprD addrA subrr sub0r oppr_eq0.
have fx : f x = Ok true.
  rewrite /f /=; congr Ok; apply/forallP => i; apply/forallP => j; rewrite !ord1 !mxE.
  rewrite intrD opprD addrA subrr sub0r normrN normr1.
  have mx (z : int) : 0 <= z -> amax (fun x : F => `|x|) (map_mx intr (const_mx z : 'M[int]_1)) = z%:~R.
    move=> z0; rewrite /amax !big_ord_recl !big_ord0 !mxE ger0_norm ?ler0z //.
    by rewrite !(max_l (y := 0)) ?ler0z // max_l // ler0z.
  have r0 : 0 <= rtol.
    by rewrite leNgt; apply/negP => r0; move: hN; rewrite leNgt (lt_trans _ ltr01) // nmulr_rlt0 // ltr0z.
  rewrite !mx ?(ltW N0) //; last by rewrite addr_ge0 // ltW.
  apply: (le_trans hN); rewrite -[X in X <= _]add0r ler_add //.
  by rewrite ler_wpmul2l // le_maxr lexx.
split; first by rewrite /= /call /= -/(f y) fy.
rewrite /= /call /= -/(f x) -/(f y) fx /trim.
case: maxsize m0 => [[|m]|] // _ /=; have -> /= : same x y by rewrite /same /= !eqxx.
- by move: fx; rewrite /f /= => -[->].
- by move: fx; rewrite /f /= => -[->].
Qed.

(* ---- C68 ---- *)
(* the normal form of the key 1 depends on whether 1.0 or True was used before *)
Theorem C68_history_refuted :
  let norm := calls pykey_same (Some 1000%N) symbol_normalizer [::] in
  [/\ norm [:: KInt 1] = [:: Ok (SInteger 1)],
      norm [:: KFloat 1; KInt 1] = [:: Ok (SFloat 1); Ok (SFloat 1)] &
      norm [:: KBool true; KInt 1] = [:: Ok (SBool true); Ok (SBool true)]].
Proof. by []. Qed.

(* for strings (and anything else that compares equal only if it is equal) the history does not matter *)
Theorem C68_strings maxsize (l : seq (seq nat)) :
  calls pykey_same maxsize symbol_normalizer [::] (map KStr l) = map (fun s => Ok (SExpr s)) l.
Proof.
pose good (c : cache pykey symbol) := forall a v, List.In (a, v) c -> exists2 s, a = KStr s & v = SExpr s.
have : good [::] by [].
elim: l [::] => [|s l IH] c gc //=.
have lk v : lookup pykey_same c (KStr s) = Some v -> v = SExpr s.
  elim: c gc => [|[a' v'] c IHc] //= gc; case: ifP => [sa [<-]|_].
    by have [t ea ->] := gc a' v' (or_introl erefl); rewrite ea /= in sa; rewrite (eqP sa).
  by apply: IHc => b w H; apply: gc; right.
case ec : (call _ _ _ _ _) => [c' r]; rewrite IH; last first.
  move: ec; rewrite /Cache.call; case el : (lookup _ _ _) => [v|].
    case=> <- _ b w H; apply: gc; move: H; clear; elim: c => [|[a' v'] c IHc] //=.
    by case: ifP => // _ /In_cat [H|[H|H]]; [right; apply/IHc/In_cat; left|left|right; apply/IHc/In_cat; right].
  case=> <- _ b w H.
  have : List.In (b, w) ((KStr s, SExpr s) :: c).
    move: H; rewrite /trim; case: (maxsize) => // m; clear.
    by elim: m (_ :: c) => [|m IHm] [|x l] //= [->|/IHm]; [left|right].
  by case=> [[<- <-]|/gc] //; exists s.
congr (_ :: _); move: ec; rewrite /Cache.call; case el : (lookup _ _ _) => [v|]; last by case=> _ <-.
by case=> _ <-; rewrite (lk _ el).
Qed.

(* a cache of two entries: squares modulo sign, the third call drops the first entry *)
Example C67_example :
  let f (z : int) := Ok (z * z)%R in
  calls (fun a b => `|a| == `|b|)%N (Some 2%N) f [::] [:: 3; -3; 1; 2; 3] = [:: Ok 9; Ok 9; Ok 1; Ok 4; Ok 9] :> seq (res int).
Proof. by []. Qed.

Print Assumptions C67_history.
Print Assumptions C67_normalised.
Print Assumptions C67_raw_refuted.
Print Assumptions C68_history_refuted.
Print Assumptions C68_strings.
