(* qsymm/_version.py: the version string.

   Strings are sequences of code points.  The processes (git) and the static version file enter through their outputs.  The hooks
   for setuptools (lines 139-163), which write the string to a file, are not modelled. *)
From Coq Require Import String Ascii.
From mathcomp Require Import all_ssreflect.
From Verif Require Import Prelude.
Set Implicit Arguments.
Unset Strict Implicit.
Unset Printing Implicit Defensive.

Definition str := seq nat.
(* a string literal *)
Fixpoint lit (s : string) : str := if s is String a s' then nat_of_ascii a :: lit s' else [::].

Section PyStrings.
(* str.strip, str.rstrip: remove characters satisfying p at both ends, at the end *)
Fixpoint lstrip (p : pred nat) (s : str) : str := if s is c :: s' then if p c then lstrip p s' else s else [::].
Definition rstrip (p : pred nat) (s : str) : str := rev (lstrip p (rev s)).
Definition strip (p : pred nat) (s : str) : str := rstrip p (lstrip p s).

(* s.split(c) *)
Fixpoint split_acc (c : nat) (acc s : str) : seq str :=
  if s is x :: s' then if x == c then rev acc :: split_acc c [::] s' else split_acc c (x :: acc) s' else [:: rev acc].
Definition split (c : nat) (s : str) : seq str := split_acc c [::] s.

(* c.join(l) *)
Fixpoint join (c : str) (l : seq str) : str :=
  match l with [::] => [::] | [:: s] => s | s :: l' => s ++ c ++ join c l' end.

(* s.rpartition(c), None if c does not occur *)
Definition rpartition (c : nat) (s : str) : option (str * str) :=
  let r := rev s in let i := index c r in
  if (i < size r)%N then Some (rev (drop i.+1 r), rev (take i r)) else None.

(* a, b, c = s.rsplit(x, 2): ValueError if there are fewer than three fields *)
Definition rsplit2 (x : nat) (s : str) : res (str * str * str) :=
  if rpartition x s is Some (s', c) then
    if rpartition x s' is Some (a, b) then Ok (a, b, c) else Err ValueError
  else Err ValueError.

Definition startswith (s p : str) : bool := take (size p) s == p.
Definition endswith (s p : str) : bool := startswith (rev s) (rev p).

(* the order of strings *)
Fixpoint lexle (s t : str) : bool :=
  match s, t with
  | [::], _ => true
  | _ :: _, [::] => false
  | a :: s', b :: t' => (a < b)%N || ((a == b) && lexle s' t')
  end.
End PyStrings.

Definition dash := 45. Definition dot := 46. Definition comma := 44. Definition newline := 10. Definition vee := 118.
Definition plus := 43.

(* Version = namedtuple('Version', ('release', 'dev', 'labels')), line 11; labels=None and labels=[] are both false *)
Record version := Version { release : str; dev : option str; labels : seq str }.

(* pep440_format, lines 39-53; [if dev:] is false for None and for the empty string *)
Definition pep440_format (v : version) : str :=
  release v ++
  (if dev v is Some (c :: d) then
     if endswith (release v) (lit "-dev") || endswith (release v) (lit ".dev") then c :: d
     else lit ".dev" ++ c :: d
   else [::]) ++
  (if labels v is [::] then [::] else plus :: join [:: dot] (labels v)).

(* The outcomes of the subprocesses of get_version_from_git, lines 56-102: None stands for OSError *)
Record git := Git {
  toplevel : option (option str);      (* None: OSError; Some None: non-zero exit code *)
  samefile : str -> bool;              (* os.path.samefile(., distr_root) *)
  describe_first : option (option str);
  describe_all : option (option str);
  diff : option nat }.                 (* the exit code *)

(* lines 84-102: from the output of git describe *)
Definition from_description (g : git) (out : str) : res (option version) :=
  let description := rstrip (pred1 newline) (strip (pred1 vee) out) in
  do rdg <- rsplit2 dash description;
  let: (r, d, h) := rdg in
  let dl := if d == lit "0" then (None, [::]) else (Some d, [:: h]) in
  let l := match diff g with
           | None => dl.2 ++ [:: lit "confused"]
           | Some code => if code == 1 then dl.2 ++ [:: lit "dirty"] else dl.2
           end in
  Ok (Some (Version r dl.1 l)).

Definition get_version_from_git (g : git) : res (option version) :=
  match toplevel g with
  | None | Some None => Ok None
  | Some (Some top) =>
      if ~~ samefile g (rstrip (pred1 newline) top) then Ok None
      else match describe_first g with
      | None => Ok None
      | Some (Some out) => from_description g out
      | Some None =>
          match describe_all g with
          | None | Some None => Ok None
          | Some (Some out) => from_description g out
          end
      end
  end.

(* get_version_from_git_archive, lines 110-133; [isspace] are the characters removed by str.strip().
   refs and version_tags are sets: duplicates are removed, and the order does not matter since the tags are sorted. *)
Section Archive.
Variable isspace : pred nat.
Definition VTAG := lit "tag: v".
Definition version_tags (refnames : str) : seq str :=
  let refs := undup (map (strip isspace) (split comma refnames)) in
  undup [seq drop (size VTAG) r | r <- refs & startswith r VTAG].

Definition get_version_from_git_archive (refnames git_hash : option str) : option version :=
  match refnames, git_hash with
  | Some refnames, Some git_hash =>
      if startswith git_hash (lit "$Format") || startswith refnames (lit "$Format") then None
      else if sort lexle (version_tags refnames) is r :: _ then Some (Version r None [::])
      else Some (Version (lit "unknown") None [:: lit "g" ++ git_hash])
  | _, _ => None
  end.

(* get_version, lines 23-36; [static] is the variable version of the static version file.  A Version is a non-empty tuple, hence true *)
Definition get_version (static : str) (g : git) (refnames git_hash : option str) : res str :=
  if static == lit "__use_git__" then
    do v <- get_version_from_git g;
    let v := if v is Some v then Some v else get_version_from_git_archive refnames git_hash in
    Ok (pep440_format (if v is Some v then v else Version (lit "unknown") None [::]))
  else Ok static.
End Archive.
