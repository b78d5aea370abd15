(* C74: the momenta after Model.subs *)
From mathcomp Require Import all_ssreflect.
From Verif Require Import Prelude ModelSubs.
Set Implicit Arguments.
Unset Strict Implicit.
Unset Printing Implicit Defensive.

Section Subs.
Variable S : eqType.
Implicit Types (momenta : seq S) (k p : S).

(* ---- one substitution, as documented ---- *)
Theorem C74_rename momenta k p : subs_momenta momenta [:: (OSym k, NSym p)] =
  if k \in momenta then [seq if m == k then p else m | m <- momenta] else momenta.
Proof.
rewrite /subs_momenta /= -[has _ _]/(has _ _).
have -> : has (eq_op k) momenta = (k \in momenta) by rewrite -has_pred1; apply: eq_has => x; rewrite /= eq_sym.
case: ifP => [_|/negbT nk]; first by apply: eq_map => m; rewrite eq_sym.
case: ifP => // _; apply/all_filterP/allP => m mm; apply/negP => /eqP e; by rewrite e mm in nk.
Qed.
Theorem C74_number momenta k : subs_momenta momenta [:: (OSym k, NNum S)] = [seq m <- momenta | m != k].
Proof. by rewrite /subs_momenta /=; case: (has _ _); apply: eq_filter => m; rewrite eq_sym. Qed.
Theorem C74_expression momenta k l :
  subs_momenta momenta [:: (OSym k, NExpr l)] =
    if has (mem l) momenta then momenta else [seq m <- momenta | m != k].
Proof.
rewrite /subs_momenta /=; have -> : [seq m <- momenta | k != m] = [seq m <- momenta | m != k] by apply: eq_filter => m; rewrite eq_sym.
by case: (has (eq_op k) _); case: (has _ _).
Qed.

(* ---- several substitutions ---- *)
(* what becomes of a momentum: documented outcome of a table of substitutions *)
Definition outcome (momenta : seq S) (l : seq (S * new S)) (m : S) : option S :=
  if [seq x.2 | x <- l & x.1 == m] is x :: _ then
    match x with
    | NSym p => Some p
    | NNum => None
    | NExpr at_ => if has (mem at_) momenta then Some m else None
    end
  else Some m.

(* new symbols are new: neither momenta, nor replaced, nor used twice; expressions contain neither new symbols nor momenta *)
Definition news (l : seq (S * new S)) : seq S := pmap (fun x => if x.2 is NSym p then Some p else None) l.
Definition fresh (momenta : seq S) (l : seq (S * new S)) :=
  [&& uniq (map fst l), all (fun x => x \notin momenta) (news l), all (fun x => x \notin map fst l) (news l),
      uniq (news l) & all (fun x => if x.2 is NExpr at_ then ~~ has (fun s => (s \in momenta) || (s \in news l)) at_ else true) l].

Lemma step_pmap momenta (k : S) (x : new S) : (if x is NExpr at_ then ~~ has (mem at_) momenta else true) ->
  subs_step momenta (OSym k, x) = pmap (fun m => if m == k then (if x is NSym p then Some p else None) else Some m) momenta.
Proof.
move=> hx; have f0 : [seq m <- momenta | k != m] = pmap (fun m => if m == k then None else Some m) momenta.
  by elim: momenta {hx} => //= m l ->; rewrite eq_sym; case: (m == k).
case: x hx => [p|at_|] /= hx.
- case: ifP => hk.
    by elim: momenta {f0 hk hx} => //= m l ->; rewrite eq_sym; case: (m == k).
  have nk m : m \in momenta -> (m == k) = false.
    by move=> mm; apply/negP => /eqP e; move/hasPn: (negbT hk) => /(_ _ mm); rewrite /= e eqxx.
  have -> : pmap (fun m => if m == k then Some p else Some m) momenta = momenta.
    elim: momenta nk {f0 hk hx} => //= m l IH nk; rewrite nk ?inE ?eqxx //= IH // => m' m'l.
    by apply: nk; rewrite inE m'l orbT.
  case: ifP => // _; apply/all_filterP/allP => m mm /=; by rewrite eq_sym nk.
- by case: (has (eq_op k) momenta); rewrite hx f0.
- by case: (has (eq_op k) momenta); rewrite f0.
Qed.

Theorem C74_list momenta (l : seq (S * new S)) : fresh momenta l ->
  subs_momenta momenta [seq (OSym x.1, x.2) | x <- l] = pmap (outcome momenta l) momenta.
Proof.
case/and5P => u1 n1 n2 u2 ex.
have exl k at_ s : List.In (k, NExpr at_) l -> s \in at_ -> (s \in momenta) || (s \in news l) = false.
  move: ex; move: (news l) => N ex kl sa; apply/negbTE; move: ex kl.
  by elim: (l) => //= y l2 IHl /andP[hy hl] [ey|/(IHl hl)] //; move: hy; rewrite ey => /hasPn; apply.
have inw (x : S * new S) p : List.In x l -> x.2 = NSym p -> p \in news l.
  elim: (l) => //= y l2 IHl [->|/IHl h] /= ex2; first by rewrite /news /= ex2 /= inE eqxx.
  by rewrite /news /=; case: y.2 => [p'|at_|] /=; rewrite ?inE -/(news l2) h ?orbT.
have InF (q : seq (S * new S)) m x r : [seq x.2 | x <- q & x.1 == m] = x :: r -> List.In (m, x) q.
  elim: q => //= -[k y] q IH /=; case: eqP => [->|_] //=; last by move/IH; right.
  by case=> -> _; left.
have step (q l' : seq (S * new S)) (mu : seq S) : l = q ++ l' -> mu = pmap (outcome momenta q) momenta ->
    subs_momenta mu [seq (OSym x.1, x.2) | x <- l'] = pmap (outcome momenta l) momenta.
  elim: l' q mu => [|[k x] l' IH] q mu el emu; first by rewrite /subs_momenta /= emu el cats0.
  rewrite /subs_momenta [LHS]/= -/(subs_momenta (subs_step mu (OSym k, x)) [seq (OSym x.1, x.2) | x <- l']).
  apply: (IH (rcons q (k, x))); first by rewrite cat_rcons.
  have kl : List.In (k, x) l by rewrite el; apply/In_cat; right; left.
  have ql y : List.In y q -> List.In y l by move=> yq; rewrite el; apply/In_cat; left.
  have mum p : p \in mu -> (p \in momenta) || (p \in news l).
    rewrite emu mem_pmap => /mapP[m mm]; rewrite /outcome.
    case ef : [seq _ | _ <- _ & _] => [|[p'|at_|] r] //=; first by case=> ->; rewrite mm.
      by case=> ->; rewrite (inw _ p' (ql _ (InF _ _ _ _ ef))) ?orbT.
    by case: ifP => // _ [->]; rewrite mm.
  rewrite step_pmap; last first.
    by case: x kl {IH el} => // at_ kl; apply/hasPn => p /mum pm; apply/negP => /(exl _ _ _ kl); rewrite pm.
  rewrite emu; set f := fun m => _; suff gen ms : {subset ms <= momenta} ->
      pmap f (pmap (outcome momenta q) ms) = pmap (outcome momenta (rcons q (k, x))) ms by apply: gen.
  elim: ms => //= m ms IHm sub.
  have mm : m \in momenta by apply: sub; rewrite inE eqxx.
  rewrite -IHm; last by move=> m' h; apply: sub; rewrite inE h orbT.
  have oc : outcome momenta (rcons q (k, x)) m = obind f (outcome momenta q m).
    rewrite /f /outcome -cats1 filter_cat map_cat /=.
    case ef : [seq _ | _ <- _ & _] => [|[p'|at_|] r] //=.
    - rewrite [k == m]eq_sym; case: (m == k) => //=; case: (x) kl => // at_ kl.
      suff -> : has (mem at_) momenta = false by [].
      by apply/hasP => -[p pm /(exl _ _ _ kl)]; rewrite pm.
    - have pk : p' != k.
        apply/negP => /eqP e; move/allP: n2 => /(_ p' (inw _ p' (ql _ (InF _ _ _ _ ef)) erefl)).
        by rewrite e el map_cat mem_cat /= inE eqxx orbT.
      by rewrite (negbTE pk).
    - have -> // : has (mem at_) momenta = false.
      by apply/hasP => -[p pm /(exl _ _ _ (ql _ (InF _ _ _ _ ef)))]; rewrite pm.
  by rewrite oc; case: (outcome momenta q m) => //= m'; case: ifP.
have e0 ms : pmap (outcome momenta [::]) ms = ms by elim: ms => //= m ms ->.
by apply: (step [::]).
Qed.

(* ---- findings ---- *)
(* a momentum renamed to another momentum: it is listed twice *)
Theorem C74_duplicate_refuted k p : k != p -> subs_momenta [:: k; p] [:: (OSym k, NSym p)] = [:: p; p].
Proof. by move=> kp; rewrite /subs_momenta /= eqxx /= (negbTE kp). Qed.

(* exchanging two momenta, one pair after the other in the loop over momenta, although simultaneous=True is passed on to sympy:
   both symbols are in the result, only one of them is a momentum *)
Theorem C74_swap_refuted k p : k != p ->
  let args := [:: (OSym k, NSym p); (OSym p, NSym k)] in
  free_simultaneous [:: k; p] args = [:: p; k] /\ subs_momenta [:: k; p] args = [:: k; k].
Proof.
move=> kp; have pk : (p == k) = false by rewrite eq_sym (negbTE kp).
by rewrite /free_simultaneous /subs_momenta /= !eqxx /= !(negbTE kp, pk, eqxx).
Qed.

(* a momentum given by its name is replaced in the Hamiltonian but stays in the list of momenta *)
Theorem C74_string_refuted k p : k != p ->
  free_subs [:: k; p] [:: (OStr k, NNum S)] = [:: p] /\ subs_momenta [:: k; p] [:: (OStr k, NNum S)] = [:: k; p].
Proof.
move=> kp; have pk : (p == k) = false by rewrite eq_sym (negbTE kp).
by rewrite /free_subs /subs_momenta /free_step /= inE eqxx /= pk.
Qed.
End Subs.

(* k_x -> q_x, k_y -> 1/2, k_z -> mu: the momenta (k_x, k_y, k_z) become (q_x,) *)
Example C74_example :
  let args := [:: (0, NSym 10); (1, NNum _); (2, NExpr [:: 20])]%N in
  fresh [:: 0; 1; 2]%N args /\
  subs_momenta [:: 0; 1; 2]%N [seq (OSym x.1, x.2) | x <- args] = [:: 10]%N.
Proof. by []. Qed.

Print Assumptions C74_list.
Print Assumptions C74_swap_refuted.
