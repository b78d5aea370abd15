(* Model of the group theory algorithms of qsymm:
     generate_group       qsymm/groups.py:580-610
     set_multiply         qsymm/groups.py:613-615
     generate_subgroups   qsymm/groups.py:618-664
     discrete_symmetries  qsymm/symmetry_finder.py:373-458 (search loop)

   The elements are of an arbitrary type [T] with a Boolean equality [eqb]
   (PointGroupElement.__eq__) and a multiplication [mul]
   (PointGroupElement.__mul__).  Python iterates over a set in an unspecified
   order; [ord] is the order in which the interpreter happens to enumerate a
   set, an arbitrary function that neither adds nor removes elements.
   `while True` loops carry a fuel argument; [None] means out of fuel. *)
From mathcomp Require Import all_ssreflect.
From Verif Require Import Prelude PySet.

Set Implicit Arguments.
Unset Strict Implicit.
Unset Printing Implicit Defensive.

Section Model.
Variables (T : Type) (eqb : rel T) (mul : T -> T -> T) (ord : seq T -> seq T).

Notation set_mem := (set_mem eqb).
Notation set_of := (set_of eqb).
Notation set_union := (set_union eqb).
Notation set_diff := (set_diff eqb).
Notation set_sub := (set_sub eqb).
Notation set_eq := (set_eq eqb).

(* groups.py:613-615 *)
Definition set_multiply (G H : seq T) : seq T :=
  set_of [seq mul g h | g <- ord G, h <- ord H].

(* groups.py:598-609, the `while True` loop of generate_group *)
Fixpoint gg_loop (fuel : nat) (gens group oldgroup : seq T) : option (seq T) :=
  if fuel is n.+1 then
    let newgroup :=
      set_diff (set_of [seq mul a b | a <- ord oldgroup, b <- ord gens]) group in
    if newgroup is [::] then Some group
    else gg_loop n gens (set_union group newgroup) newgroup
  else None.

(* groups.py:580-610 *)
Definition generate_group (fuel : nat) (gens : seq T) : option (seq T) :=
  let gens := set_of gens in
  gg_loop fuel gens gens gens.

(* A dict {frozenset: set}: association list, first match wins, insertion order. *)
Notation sgdict := (seq (seq T * seq T)).

Definition sg_has (d : sgdict) (k : seq T) : bool := has (fun kv => set_eq k kv.1) d.

(* d[k] = v: replaces the value if an equal key is present (the stored key is
   kept), appends otherwise *)
Fixpoint sg_set (d : sgdict) (k v : seq T) : sgdict :=
  if d is kv :: d' then
    if set_eq k kv.1 then (kv.1, v) :: d' else kv :: sg_set d' k v
  else [:: (k, v)].

(* groups.py:634: sg1 = {frozenset(generate_group({g})): {g} for g in group} *)
Fixpoint sg_cyclic (gf : nat) (gs : seq T) (d : sgdict) : option sgdict :=
  if gs is g :: gs' then
    if generate_group gf [:: g] is Some G then sg_cyclic gf gs' (sg_set d G [:: g])
    else None
  else Some d.

(* groups.py:644-656: one pass over product(sgold.items(), sg1.items());
   state = (subgroups, sgnew) *)
Fixpoint sg_pass (gf : nat) (pairs : seq ((seq T * seq T) * (seq T * seq T)))
    (subgroups sgnew : sgdict) : option (sgdict * sgdict) :=
  if pairs is ((sg, gen), (g1, gen1)) :: ps then
    if ~~ set_sub g1 sg then
      if generate_group gf (set_union gen gen1) is Some newsg then
        if ~~ sg_has subgroups newsg then
          let newgen := set_union gen gen1 in
          sg_pass gf ps (sg_set subgroups newsg newgen) (sg_set sgnew newsg newgen)
        else sg_pass gf ps subgroups sgnew
      else None
    else sg_pass gf ps subgroups sgnew
  else Some (subgroups, sgnew).

(* min([len(sg) for sg in sgnew.keys()]) for non-empty sgnew *)
Definition sg_minlen (d : sgdict) : nat :=
  if d is kv :: d' then foldl minn (size kv.1) [seq size kv'.1 | kv' <- d'] else 0.

(* groups.py:642-663, the `while True` loop of generate_subgroups *)
Fixpoint sg_loop (fuel gf : nat) (group : seq T) (sg1 subgroups sgold : sgdict)
    : option sgdict :=
  if fuel is n.+1 then
    if sg_pass gf [seq (a, b) | a <- sgold, b <- sg1] subgroups [::]
      is Some (subgroups', sgnew) then
      if nilp sgnew || (sg_minlen sgnew == size group)
      then Some subgroups'
      else sg_loop n gf group sg1 subgroups' sgnew
    else None
  else None.

(* groups.py:618-664 *)
Definition generate_subgroups (fuel gf : nat) (group : seq T) : option sgdict :=
  if sg_cyclic gf (ord group) [::] is Some sg1 then
    sg_loop fuel gf group sg1 sg1 sg1
  else None.

(* ---- symmetry_finder.py: discrete_symmetries, lines 407-458 ----
   [pick] is the choice of the next candidate, `min(symmetry_candidates)`;
   [find] is _find_unitary: [Some gr] if a unitary part was found, [None] if
   gr.U is None; [check gr] is `gr.apply(model) == model`.
   The state is (symmetry_candidates, symset, genset, not_symmetries). *)
Variables (inv : T -> T) (pick : T -> seq T -> T) (find : T -> option T) (check : pred T).

Fixpoint ds_loop (fuel gf : nat) (cand symset genset nots : seq T)
    : option (res (seq T * seq T)) :=
  if cand is c0 :: _ then
    if fuel is n.+1 then
      let g := pick c0 cand in                                  (* l. 424 *)
      let cand1 := set_diff cand [:: g] in                      (* l. 425 *)
      let gi := set_of [:: g; inv g] in
      if find g is Some gr then                                 (* l. 427-428 *)
        if ~~ check gr then Some (Err AssertionError) else      (* l. 430 *)
        let genset' := set_add eqb genset gr in                 (* l. 431 *)
        if generate_group gf (set_union [:: gr] genset') is Some symset' then
          let cand2 := set_diff cand1 symset' in                (* l. 435 *)
          let n1 := set_diff (set_multiply gi nots) nots in     (* l. 440-441 *)
          let n2 := set_union n1 (set_multiply n1 gi) in        (* l. 442 *)
          let nots' := set_union nots n2 in                     (* l. 443 *)
          ds_loop n gf (set_diff cand2 nots') symset' genset' nots'
        else None
      else
        let n1 := set_diff (set_multiply gi symset) nots in     (* l. 445-446 *)
        let n2 := set_union n1 (set_multiply symset n1) in      (* l. 447 *)
        let nots' := set_union nots n2 in                       (* l. 448 *)
        ds_loop n gf (set_diff cand1 nots') symset genset nots'
    else None
  else Some (Ok (symset, genset)).

(* lines 407-458; [ident g] is g.identity() with U set to the unit matrix;
   `next(iter(candidates))` raises StopIteration on an empty set.
   Returns (symset, genset); the flag `generators` selects one of the two. *)
Definition discrete_symmetries (fuel gf : nat) (ident : T -> T) (candidates : seq T)
    : option (res (seq T * seq T)) :=
  if candidates is c :: _ then
    let e := ident c in
    ds_loop fuel gf (set_diff candidates [:: e]) [:: e] [::] [::]
  else Some (Err StopIteration).

End Model.
