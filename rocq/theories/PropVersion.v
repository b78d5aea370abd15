(* C72: version strings *)
From Coq Require Import String Ascii.
From mathcomp Require Import all_ssreflect.
From Verif Require Import Prelude Version.
Set Implicit Arguments.
Unset Strict Implicit.
Unset Printing Implicit Defensive.

(* ---- strings ---- *)
Lemma split_acc_nosep c acc s : c \notin s -> split_acc c acc s = [:: rev acc ++ s].
Proof.
elim: s acc => [|x s IH] acc; first by rewrite cats0.
rewrite inE negb_or => /andP[cx cs] /=; rewrite eq_sym (negbTE cx) IH // rev_cons -cats1 -catA //.
Qed.
Lemma split_acc_cat c acc s t : c \notin s -> split_acc c acc (s ++ c :: t) = (rev acc ++ s) :: split c t.
Proof.
elim: s acc => [|x s IH] acc /=; first by rewrite eqxx cats0.
by rewrite inE negb_or => /andP[cx cs]; rewrite eq_sym (negbTE cx) IH // rev_cons -cats1 -catA.
Qed.
Lemma split_join c (l : seq str) : l != [::] -> all (fun s => c \notin s) l -> split c (join [:: c] l) = l.
Proof.
elim: l => [|s [|s' l] IH] // _ /andP[cs cl]; first by rewrite /split split_acc_nosep.
by rewrite [join _ _]/= -/(join [:: c] (s' :: l)) /split split_acc_cat //= -/(split c _) IH.
Qed.

Lemma rpartition_cat c s t : c \notin t -> rpartition c (s ++ c :: t) = Some (s, t).
Proof.
move=> ct; rewrite /rpartition rev_cat rev_cons cat_rcons.
have ct' : c \notin rev t by rewrite mem_rev.
rewrite index_cat (negbTE ct') /= eqxx addn0 size_cat /= -addSnnS leq_addr.
rewrite take_size_cat // revK drop_cat ltnNge leqnSn /= subSnn /= drop0 revK //.
Qed.
Lemma rsplit2_cat c r d h : c \notin d -> c \notin h -> rsplit2 c (r ++ c :: d ++ c :: h) = Ok (r, d, h).
Proof. by move=> cd ch; rewrite /rsplit2 -cat_cons catA rpartition_cat // rpartition_cat. Qed.

Lemma lexle_refl s : lexle s s. Proof. by elim: s => //= a s IH; rewrite eqxx IH orbT. Qed.
Lemma lexle_total : total lexle.
Proof. elim=> [|a s IH] [|b t] //=; case: ltngtP => //= _; exact: IH. Qed.
Lemma lexle_trans : transitive lexle.
Proof.
move=> t s; elim: s t => [|a s IH] [|b t] [|c u] //=.
case/orP => [ab|/andP[/eqP -> st]]; case/orP => [bc|/andP[/eqP <- tu]].
- by rewrite (ltn_trans ab bc).
- by rewrite ab.
- by rewrite bc.
- by rewrite eqxx (IH _ _ st tu) orbT.
Qed.
Lemma lexle_prefix s t : lexle s (s ++ t). Proof. by elim: s => //= a s IH; rewrite eqxx IH orbT. Qed.

(* ---- pep440_format ---- *)

(* nothing is added to a release *)
Theorem C72_release r : pep440_format (Version r None [::]) = r.
Proof. by rewrite /pep440_format /= cats0. Qed.

(* the labels can be read off: they are the fields of what follows the +, for any release and dev *)
Theorem C72_labels r d (l : seq str) : l != [::] -> all (fun s => dot \notin s) l ->
  exists s, pep440_format (Version r d l) = pep440_format (Version r d [::]) ++ plus :: s /\ split dot s = l.
Proof.
case: l => // x l _ al; exists (join [:: dot] (x :: l)); rewrite split_join //; split=> //.
by rewrite /pep440_format /= !cats0 catA.
Qed.

(* dev is appended exactly when it is set (and not empty) *)
Theorem C72_dev (r r' d : str) : d != [::] ->
  pep440_format (Version (r' ++ lit "-dev") (Some d) [::]) = r' ++ lit "-dev" ++ d /\
  pep440_format (Version (r' ++ lit ".dev") (Some d) [::]) = r' ++ lit ".dev" ++ d /\
  ((forall s, r <> s ++ lit "-dev") -> (forall s, r <> s ++ lit ".dev") ->
    pep440_format (Version r (Some d) [::]) = r ++ lit ".dev" ++ d).
Proof.
have ew s t : endswith (s ++ t) t by rewrite /endswith /startswith rev_cat size_rev take_cat size_rev ltnn subnn take0 cats0.
have we s t : endswith s t -> exists u, s = u ++ t.
  move=> /eqP e; exists (rev (drop (size (rev t)) (rev s))).
  by rewrite -[LHS]revK -{1}(cat_take_drop (size (rev t)) (rev s)) e rev_cat revK.
case: d => // x d _; rewrite /pep440_format /= !ew /= ?orbT !cats0 -!catA; split=> //; split=> // n1 n2.
by case: ifP => // /orP[/we [s]|/we [s]] e; [case: (n1 s)|case: (n2 s)].
Qed.

(* For a given release the string determines dev and labels: no two versions are confused *)
Definition dev_of (d : option str) : str := if d is Some d then d else [::].
Theorem C72_injective r d1 d2 (l1 l2 : seq str) :
  plus \notin dev_of d1 -> plus \notin dev_of d2 ->
  all (fun s => dot \notin s) l1 -> all (fun s => dot \notin s) l2 ->
  pep440_format (Version r d1 l1) = pep440_format (Version r d2 l2) -> dev_of d1 = dev_of d2 /\ l1 = l2.
Proof.
move=> p1 p2 a1 a2; rewrite /pep440_format /=.
set e := _ || _; move/eqP; rewrite eqseq_cat // eqxx /= => /eqP.
pose D d := if d is Some (c :: d) then if e then c :: d else lit ".dev" ++ c :: d else [::].
pose L (l : seq str) := if l is [::] then [::] else plus :: join [:: dot] l.
rewrite -/(D d1) -/(D d2) -/(L l1) -/(L l2).
have pD d : plus \notin dev_of d -> plus \notin D d by case: d => [[|c d]|] //=; case: (e).
have Dinj d d' : D d = D d' -> dev_of d = dev_of d'.
  by case: d d' => [[|c d]|] [[|c' d']|] //=; case: (e) => // -[-> ->].
have Linj l l' : all (fun s => dot \notin s) l -> all (fun s => dot \notin s) l' -> L l = L l' -> l = l'.
  case: l l' => [|x l] [|x' l'] // al al' [ej]; rewrite -(split_join (l := x :: l) isT al) -(split_join (l := x' :: l') isT al').
  by congr (split _ _).
have cut s s' t t' : plus \notin s -> plus \notin s' -> (t = [::] \/ exists u, t = plus :: u) -> (t' = [::] \/ exists u, t' = plus :: u) ->
    s ++ t = s' ++ t' -> s = s' /\ t = t'.
  elim: s s' => [|x s IH] [|x' s'] //=.
  - by move=> _; rewrite inE negb_or => /andP[n _] [->|[u ->]] // _ [ex]; rewrite ex eqxx in n.
  - by rewrite inE negb_or => /andP[n _] _ _ [->|[u ->]] // [ex]; rewrite ex eqxx in n.
  - by rewrite !inE !negb_or => /andP[_ n1] /andP[_ n2] h1 h2 [-> /(IH _ n1 n2 h1 h2)[-> ->]].
have hL l : L l = [::] \/ exists u, L l = plus :: u by case: l => [|x l]; [left|right; exists (join [:: dot] (x :: l))].
by case/(cut _ _ _ _ (pD _ p1) (pD _ p2) (hL _) (hL _)) => /Dinj -> /(Linj _ _ a1 a2).
Qed.

(* ---- git describe ---- *)
(* [git describe --long] prints tag-number-hash; the tag may contain dashes *)
Theorem C72_describe (g : git) (tag n h : str) :
  dash \notin n -> dash \notin h -> newline \notin h -> vee \notin take 1 tag -> tag != [::] ->
  from_description g (vee :: tag ++ dash :: n ++ dash :: h ++ [:: newline]) =
    Ok (Some (Version tag (if n == lit "0" then None else Some n)
      ((if n == lit "0" then [::] else [:: h]) ++
       (if diff g is Some code then if code == 1 then [:: lit "dirty"] else [::] else [:: lit "confused"])))).
Proof.
move=> dn dh nh vt t0; rewrite /from_description.
have -> : strip (pred1 vee) (vee :: tag ++ dash :: n ++ dash :: h ++ [:: newline]) = tag ++ dash :: n ++ dash :: h ++ [:: newline].
  case: tag t0 vt => // c tag _; rewrite /= take0 inE => nv; rewrite /strip /= eq_sym (negbTE nv) /rstrip.
  set s := _ ++ _; have -> : rev (c :: s) = newline :: rev (c :: tag ++ dash :: n ++ dash :: h).
    by rewrite -rev_rcons -cats1 /s /= -!catA /= -!catA.
  by rewrite /= -rev_rcons -cats1 revK /s /= -!catA /= -!catA.
have -> : rstrip (pred1 newline) (tag ++ dash :: n ++ dash :: h ++ [:: newline]) = tag ++ dash :: n ++ dash :: h.
  rewrite /rstrip; set s := tag ++ dash :: n ++ dash :: h.
  have -> : tag ++ dash :: n ++ dash :: h ++ [:: newline] = rcons s newline by rewrite -cats1 /s /= -!catA /= -!catA.
  rewrite rev_rcons /= (_ : lstrip _ (rev s) = rev s) ?revK //.
  rewrite /s rev_cat rev_cons rev_cat rev_cons.
  case eh : (rev h) => [|c h'] //=; suff /negbTE -> : c != newline by [].
  by apply/negP => /eqP ec; move: nh; rewrite -mem_rev eh inE ec eqxx.
by rewrite rsplit2_cat //=; case: eqP => _; case: (diff g) => [code|] //=; case: ifP.
Qed.

(* ---- the archive ---- *)
Section Archive.
Variable isspace : pred nat.
Local Notation archive := (get_version_from_git_archive isspace).

(* the refs of refnames: the fields between commas without surrounding blanks *)
Definition is_ref (refnames r : str) := exists2 s, List.In s (split comma refnames) & r = strip isspace s.

Lemma mem_tags refnames t : t \in version_tags isspace refnames <-> is_ref refnames (lit "tag: v" ++ t).
Proof.
rewrite /version_tags mem_undup; split.
  case/mapP => r; rewrite mem_filter mem_undup => /andP[/eqP st /mapP[s ss er]] ->.
  exists s; first by move: ss; clear; elim: (split _ _) => //= x l IH; rewrite inE => /orP[/eqP ->|/IH]; [left|right].
  by rewrite -er -[RHS](cat_take_drop (size VTAG)) st.
case=> s ss es; apply/mapP; exists (lit "tag: v" ++ t); last by rewrite drop_size_cat.
rewrite mem_filter mem_undup /startswith take_size_cat // eqxx andTb es; apply: map_f.
by move: ss; clear; elim: (split _ _) => //= x l IH [->|/IH h]; rewrite inE ?eqxx ?h ?orbT.
Qed.

Definition expanded (s : str) := ~~ startswith s (lit "$Format").

(* the smallest tag in the order of strings *)
Theorem C72_archive_tag refnames h v : expanded h -> expanded refnames -> (exists t, is_ref refnames (lit "tag: v" ++ t)) ->
  archive (Some refnames) (Some h) = Some v ->
  [/\ is_ref refnames (lit "tag: v" ++ release v), dev v = None, labels v = [::] &
      forall t, is_ref refnames (lit "tag: v" ++ t) -> lexle (release v) t].
Proof.
move=> eh er [t /mem_tags ht]; rewrite /get_version_from_git_archive (negbTE eh) (negbTE er) /=.
case es : (sort _ _) => [|r l]; first by rewrite -(mem_sort lexle) es in ht.
case=> <- /=; split=> //.
  by apply/mem_tags; rewrite -(mem_sort lexle) es inE eqxx.
move=> u /mem_tags; rewrite -(mem_sort lexle) es inE => /orP[/eqP ->|ul]; first exact: lexle_refl.
have := sort_sorted lexle_total (version_tags isspace refnames); rewrite es /=.
by rewrite (path_sortedE lexle_trans) => /andP[/allP a _]; apply: a.
Qed.

(* hence a release wins against its own release candidates: 2.0 against 2.0rc1 *)
Theorem C72_archive_prefix refnames h v t s : expanded h -> expanded refnames ->
  is_ref refnames (lit "tag: v" ++ t) -> archive (Some refnames) (Some h) = Some v -> release v = t ++ s -> s = [::].
Proof.
move=> eh er ht hv e; have [_ _ _ /(_ _ ht)] := C72_archive_tag eh er (ex_intro _ t ht) hv.
by rewrite e; elim: t {ht e} => [|a t IH] /=; [case: s|rewrite ltnn eqxx].
Qed.

(* without a version tag the hash is reported *)
Theorem C72_archive_hash refnames h : expanded h -> expanded refnames -> (forall t, ~ is_ref refnames (lit "tag: v" ++ t)) ->
  archive (Some refnames) (Some h) = Some (Version (lit "unknown") None [:: lit "g" ++ h]).
Proof.
move=> eh er no; rewrite /get_version_from_git_archive (negbTE eh) (negbTE er) /=.
case es : (sort _ _) => [|r l] //; case: (no r); apply/mem_tags.
by rewrite -(mem_sort lexle) es inE eqxx.
Qed.

(* The order of strings is not the order of versions: of the tags v9.0 and v10.0 the larger version is selected *)
Theorem C72_not_numeric : ~~ isspace 116 -> ~~ isspace 48 -> isspace 32 ->
  archive (Some (lit "tag: v9.0, tag: v10.0")) (Some (lit "abc")) = Some (Version (lit "10.0") None [::]).
Proof.
move=> /negbTE s1 /negbTE s2 s3.
by rewrite /get_version_from_git_archive /version_tags /= /strip /rstrip /= ?s1 ?s3 /= ?s1 /= /rev /= ?s2.
Qed.

(* get_version never fails when git describe prints at least two dashes *)
Theorem C72_total static g refnames h :
  (forall out, describe_first g = Some (Some out) \/ describe_all g = Some (Some out) -> exists v, from_description g out = Ok v) ->
  exists s, get_version isspace static g refnames h = Ok s.
Proof.
move=> ok; rewrite /get_version; case: ifP => _; last by eexists.
suff [v ->] : exists v, get_version_from_git g = Ok v by case: v => /=; eexists.
rewrite /get_version_from_git; case: (toplevel g) => [[top|]|]; try by eexists.
case: ifP => _; first by eexists.
case e1 : (describe_first g) => [[out|]|]; try by eexists.
  by apply: ok; left.
case e2 : (describe_all g) => [[out|]|]; try by eexists.
by apply: ok; right.
Qed.
(* ---- C93: which source of information is used ---- *)
(* git rev-parse prints the directory and a newline *)
Lemma rstrip_newline dir : ~~ (newline \in dir) -> rstrip (pred1 newline) (rcons dir newline) = dir.
Proof.
move=> nd; rewrite /rstrip rev_rcons /=; suff -> : lstrip (pred1 newline) (rev dir) = rev dir by rewrite revK.
by rewrite -mem_rev in nd; case: (rev dir) nd => //= c d; rewrite inE negb_or eq_sym => /andP [/negbTE ->].
Qed.
(* another repository: its tags and state are not looked at *)
Theorem C93_foreign g dir refnames h : newline \notin dir -> toplevel g = Some (Some (rcons dir newline)) -> ~~ samefile g dir ->
  get_version isspace (lit "__use_git__") g refnames h =
  Ok (pep440_format (if archive refnames h is Some v then v else Version (lit "unknown") None [::])).
Proof. by move=> nd e ns; rewrite /get_version /= /get_version_from_git e rstrip_newline // ns. Qed.
(* no repository at all, or no git *)
Theorem C93_no_git g refnames h : toplevel g = None \/ toplevel g = Some None ->
  get_version isspace (lit "__use_git__") g refnames h =
  Ok (pep440_format (if archive refnames h is Some v then v else Version (lit "unknown") None [::])).
Proof. by case=> e; rewrite /get_version /= /get_version_from_git e. Qed.
(* the own repository: tags reached by first parents are preferred to other tags *)
Theorem C93_own g dir out refnames h : newline \notin dir -> toplevel g = Some (Some (rcons dir newline)) -> samefile g dir ->
  describe_first g = Some (Some out) \/ (describe_first g = Some None /\ describe_all g = Some (Some out)) ->
  forall v, from_description g out = Ok (Some v) ->
  get_version isspace (lit "__use_git__") g refnames h = Ok (pep440_format v).
Proof.
move=> nd e sf d v ev; rewrite /get_version /= /get_version_from_git e rstrip_newline // sf /=.
by case: d => [->|[-> ->]]; rewrite ev.
Qed.
(* the own repository without any tag *)
Theorem C93_no_tag g refnames h : describe_first g = Some None -> describe_all g = Some None ->
  get_version isspace (lit "__use_git__") g refnames h =
  Ok (pep440_format (if archive refnames h is Some v then v else Version (lit "unknown") None [::])).
Proof.
move=> e1 e2; rewrite /get_version /= /get_version_from_git e1 e2.
by case: (toplevel g) => [[top|]|] //; case: ifP.
Qed.
(* a released version *)
Theorem C93_static static g refnames h : static != lit "__use_git__" -> get_version isspace static g refnames h = Ok static.
Proof. by rewrite /get_version => /negbTE ->. Qed.
End Archive.

Example C93_example : let dir := lit "/src" in
  get_version (pred1 32) (lit "__use_git__")
    (Git (Some (Some (rcons dir newline))) (pred1 dir) (Some None) (Some (Some (lit "v1.3.0-4-gabc" ++ [:: newline]))) (Some 1)) None None =
    Ok (lit "1.3.0.dev4+gabc.dirty") /\
  get_version (pred1 32) (lit "__use_git__")
    (Git (Some (Some (rcons (lit "/other") newline))) (pred1 dir) (Some None) (Some (Some (lit "v1.3.0-4-gabc" ++ [:: newline]))) (Some 1)) None None =
    Ok (lit "unknown").
Proof. by []. Qed.

Example C72_example :
  pep440_format (Version (lit "1.2.0") (Some (lit "17")) [:: lit "g1a2b3c"; lit "dirty"]) = lit "1.2.0.dev17+g1a2b3c.dirty".
Proof. by []. Qed.

Print Assumptions C72_injective.
Print Assumptions C72_describe.
Print Assumptions C72_archive_tag.
Print Assumptions C72_not_numeric.
