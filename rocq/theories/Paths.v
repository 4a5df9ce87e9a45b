(** Model of the import resolver of the command, cmd/test.go:71-84, with the functions of path/filepath it uses.
    These are Go's, for Unix, and follow their documentation part by part instead of byte by byte. *)
From Verif Require Import Base.
Local Open Scope string_scope.
Local Open Scope list_scope.

(** The parts of a path between its slashes. *)
Fixpoint parts (p : string) : list string :=
  match p with
  | EmptyString => [""]
  | String c p' =>
      if Ascii.eqb c "/" then "" :: parts p'
      else match parts p' with w :: ws => String c w :: ws | [] => [String c ""] end
  end.
Definition rooted (p : string) : bool := match p with String c _ => Ascii.eqb c "/" | EmptyString => false end.

(** [filepath.Clean]: the parts kept so far are in reverse order.  Empty parts and "." go; ".." takes away the part
    before it, unless this is a ".." too, and goes at the start of a path from the root. *)
Definition clean_step (root : bool) (out : list string) (w : string) : list string :=
  if (String.eqb w "" || String.eqb w ".")%bool then out
  else if String.eqb w ".." then
    match out with
    | [] => if root then [] else [".."]
    | x :: out' => if String.eqb x ".." then ".." :: out else out'
    end
  else w :: out.
Definition clean_path (p : string) : string :=
  let out := rev (fold_left (clean_step (rooted p)) (parts p) []) in
  if rooted p then String.append "/" (String.concat "/" out)
  else match out with [] => "." | _ => String.concat "/" out end.

(** [filepath.Join]: leading empty elements are left out. *)
Fixpoint join_paths (l : list string) : string :=
  match l with
  | [] => ""
  | x :: l' => if String.eqb x "" then join_paths l' else clean_path (String.concat "/" l)
  end.

(** [filepath.Dir]: what is up to the last slash, cleaned. *)
Fixpoint up_to_slash (p : string) : string :=
  match p with
  | EmptyString => ""
  | String c p' => match up_to_slash p' with
                   | EmptyString => if Ascii.eqb c "/" then "/" else ""
                   | d => String c d
                   end
  end.
Definition dir_path (p : string) : string := clean_path (up_to_slash p).

(** cmd/test.go:75-80 [Resolve]. *)
Definition resolve_import (base from file : string) : string :=
  if String.eqb from "" then clean_path (join_paths [base; file]) else clean_path (join_paths [base; from; file]).
(** cmd/test.go:82-84 [makeResolver]. *)
Definition make_resolver (grammar_file : string) : string -> string -> string := resolve_import (dir_path grammar_file).
