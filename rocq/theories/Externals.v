(** Model of [WithExternals] in parser/scope.go and of [ParseWithExternals] in parser/terms.go. *)
From Verif Require Import Base Scanner Syntax Engine Resolve Compile Parse.
Local Open Scope list_scope.

(** [strings.Split(s, "()")]; [part] is what has been read of the current part. *)
Fixpoint split_parens (part s : bytes) : list bytes :=
  match s with
  | [] => [part]
  | a :: ((b :: s'') as s') =>
      if (Ascii.eqb a "(" && Ascii.eqb b ")")%bool then part :: split_parens [] s''
      else split_parens (part ++ [a]) s'
  | a :: s' => split_parens (part ++ [a]) s'
  end.

(** scope.go:99-118 [WithExternals]: the loop over the externals, in the order of the map; [e] is the
    escape found so far.  [MustCompile] panics on patterns that are not valid. *)
Fixpoint find_escape (E : engine) (e : option escape) (exts : list (string * extfn)) : cres (option escape) :=
  match exts with
  | [] => COk e
  | (name, fn) :: exts' =>
      match bs name with
      | c :: rest =>
          if Ascii.eqb c "*" then
            match e, split_parens [] rest with
            | None, o :: cl :: _ =>
                if (re_valid E (anchor ++ o) && re_valid E (anchor ++ cl))%bool
                then find_escape E (Some (mkEscape (anchor ++ o) (anchor ++ cl) fn)) exts'
                else CPanic
            | _, _ => CPanic
            end
          else find_escape E e exts'
      | [] => find_escape E e exts'
      end
  end.

(** terms.go:51-63 [ParseWithExternals]. *)
Definition parse_with_externals (E : engine) (rnd : nat -> Z) (exts : list (string * extfn)) (fuel : nat) (ps : parsers)
  (rule : string) (inp : scanner) : res * scanner :=
  match find_escape E None exts with
  | COk esc => parse_rule (mkConfig E exts esc rnd) fuel ps rule inp
  | CPanic => (RPanic, inp)
  | CDiv => (RFuel, inp)
  end.
