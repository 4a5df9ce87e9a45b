(** Model of cmd/codegen/grammar.go: writing a grammar as Go source.  The order in which Go ranges
    over maps does not matter here: the keys are sorted, and the rules are put into a map. *)
From Verif Require Import Base Scanner Syntax Resolve Compile.

(** grammar.go:14-25 [GoNode]. *)
Inductive scope_kind := NoScope | BracesScope | SquigglyScope | MapScope.
Inductive gonode := GoNode (name : bytes) (children : list gonode) (sc : scope_kind).

(** [strings.Join]. *)
Fixpoint join (sep : bytes) (l : list bytes) : bytes :=
  match l with
  | [] => []
  | [x] => x
  | x :: l' => x ++ sep ++ join sep l'
  end.
(** grammar.go:32-35. *)
Definition opening (sc : scope_kind) : bytes :=
  match sc with NoScope => [] | MapScope => bs ":" | BracesScope => bs "(" | SquigglyScope => bs "{" end.
Definition closing (sc : scope_kind) : bytes :=
  match sc with NoScope | MapScope => [] | BracesScope => bs ")" | SquigglyScope => bs "}" end.
(** grammar.go:27-42 [GoNode.String]. *)
Fixpoint gostring (n : gonode) : bytes :=
  match n with
  | GoNode name children sc => name ++ opening sc ++ join (","%char :: [nl]) (map gostring children) ++ closing sc
  end.

(** grammar.go:48-51 [safeString]. *)
Definition back_quote : ascii := "`".
Definition safe_string (s : bytes) : bytes :=
  flat_map (fun c => if Ascii.eqb c back_quote then bs "`+""`""+`" else [c]) s.
(** grammar.go:53-59 [prefixName]. *)
Definition prefix_name (prefix : string) (n : gonode) : gonode :=
  match n with GoNode name children sc => GoNode (bs prefix ++ name) children sc end.
(** grammar.go:60-62 [stringNode]. *)
Definition string_node (s : bytes) : gonode := GoNode s [] NoScope.
(** [fmt.Sprintf("%s(`%s`)", f, s)]. *)
Definition quoted_call (f : string) (s : bytes) : bytes := bs f ++ bs "(`" ++ s ++ bs "`)".

(** [strings.Contains(s, "@")] and [strings.Split(s, "@")[0]]. *)
Definition has_at (s : string) : bool := existsb (Ascii.eqb "@") (bs s).
Fixpoint before_at (b : bytes) : bytes :=
  match b with [] => [] | c :: b' => if Ascii.eqb "@" c then [] else c :: before_at b' end.

(** [sort.Strings]. *)
Fixpoint insert_string (x : string) (l : list string) : list string :=
  match l with
  | [] => [x]
  | y :: l' => match String.compare x y with Gt => y :: insert_string x l' | _ => x :: l end
  end.
Definition sort_strings (l : list string) : list string := fold_right insert_string [] l.

(** grammar.go:189-197: the layers [rule@i], [rule@(i+1)], ..., which are removed from the rules.  Each
    of them removes one, so [fuel] is the number of rules. *)
Fixpoint take_layers (fuel : nat) (rule : string) (i : nat) (rules : list (string * gonode)) : list gonode * list (string * gonode) :=
  match fuel with
  | O => ([], rules)
  | S fuel =>
      let stackname := (rule ++ "@" ++ dec i)%string in
      match lookup stackname rules with
      | Some node => let '(nodes, rules) := take_layers fuel rule (i + 1) (adel stackname rules) in (node :: nodes, rules)
      | None => ([], rules)
      end
  end.
(** [fmt.Sprintf(`"%s"`, rule)] as the name of a map entry. *)
Definition entry (rule : string) (n : gonode) : gonode := GoNode (bs """" ++ bs rule ++ bs """") [n] MapScope.
(** grammar.go:182-213: the loop over the sorted names. *)
Fixpoint entries (prefixes : list string) (ks : list string) (rules : list (string * gonode)) : list gonode :=
  match ks with
  | [] => []
  | rule :: ks' =>
      if existsb (String.eqb rule) prefixes then
        let first := match lookup rule rules with Some n => n | None => GoNode [] [] NoScope end in
        let '(layers, rules) := take_layers (length rules) rule 1 rules in
        entry rule (GoNode (bs "parser.Stack") (first :: layers) SquigglyScope) :: entries prefixes ks' rules
      else match lookup rule rules with
           | Some n => entry rule n :: entries prefixes ks' rules
           | None => entries prefixes ks' rules
           end
  end.
(** grammar.go:165-215 [MakeGrammarString], given the nodes of the rules. *)
Definition grammar_node (rules : list (string * gonode)) : gonode :=
  let prefixes := map (fun r => sb (before_at (bs r))) (filter has_at (keys rules)) in
  GoNode (bs "parser.Grammar") (entries prefixes (sort_strings (keys rules)) rules) SquigglyScope.

(** grammar.go:64-163 [walkTerm]. *)
Fixpoint walk_term (t : term) : gonode :=
  match t with
  | TSeq ts => GoNode (bs "parser.Seq") (map walk_term ts) SquigglyScope
  | TStack ts => GoNode (bs "parser.Stack") (map walk_term ts) SquigglyScope
  | TOneof ts => GoNode (bs "parser.Oneof") (map walk_term ts) SquigglyScope
  | TS s => string_node (quoted_call "parser.S" (safe_string s))
  | TDelim t sep a cs ce =>
      GoNode (bs "parser.Delim")
        ([prefix_name "Term: " (walk_term t); prefix_name "Sep: " (walk_term sep)]
         ++ (if cs then [string_node (bs "CanStartWithSep: true")] else [])
         ++ (if ce then [string_node (bs "CanEndWithSep: true")] else [])
         ++ (match a with
             | LeftToRight => [string_node (bs "Assoc: parser.LeftToRight")]
             | RightToLeft => [string_node (bs "Assoc: parser.RightToLeft")]
             | NonAssociative => []
             end)) SquigglyScope
  | TQuant t mn mx =>
      if (Nat.eqb mn 0 && Nat.eqb mx 0)%bool then GoNode (bs "parser.Any") [walk_term t] BracesScope
      else if (Nat.eqb mn 1 && Nat.eqb mx 0)%bool then GoNode (bs "parser.Some") [walk_term t] BracesScope
      else if (Nat.eqb mn 0 && Nat.eqb mx 1)%bool then GoNode (bs "parser.Opt") [walk_term t] BracesScope
      else GoNode (bs "parser.Quant") [walk_term t; string_node (bs "Min: " ++ bs (dec mn)); string_node (bs "Max: " ++ bs (dec mx))] SquigglyScope
  | TNamed n t => GoNode (bs "parser.Eq") [string_node (bs "`" ++ bs n ++ bs "`"); walk_term t] BracesScope
  | TScoped t g =>
      GoNode (bs "parser.ScopedGrammar")
        [prefix_name "Term: " (walk_term t);
         prefix_name "Grammar: " (grammar_node (map (fun kv : string * term => (fst kv, walk_term (snd kv))) g))] SquigglyScope
  | TREF i d =>
      GoNode (bs "parser.REF")
        (string_node (bs "Ident: `" ++ bs i ++ bs "`")
         :: match d with Some s => [prefix_name "Default: " (string_node (quoted_call "parser.S" (safe_string s)))] | None => [] end) SquigglyScope
  | TRE s => string_node (quoted_call "parser.RE" (safe_string s))
  | TRule r => string_node (if has_at r then bs "parser.At" else quoted_call "parser.Rule" (bs r))
  | TCut t => GoNode (bs "parser.CutPoint") [walk_term t] SquigglyScope
  | TExtRef s => string_node (quoted_call "parser.ExtRef" (safe_string (bs s)))
  | TLookAhead t => GoNode (bs "parser.LookAhead") [walk_term t] SquigglyScope
  end.
(** grammar.go:165-215 [MakeGrammarString]. *)
Definition make_grammar_string (g : grammar) : gonode :=
  grammar_node (map (fun kv : string * term => (fst kv, walk_term (snd kv))) g).

(** parser.go:743-755: compiling a nested grammar without a wrapper of its own writes that of the enclosing
    grammar [w] into its map; if it has stacks, this happens to a clone that is not kept.  The compiled
    grammar that is printed has these entries. *)
Definition inherited (w : option term) (g : grammar) : grammar :=
  match w, lookup WrapRE g with
  | Some x, None => if existsb (fun kv => is_stack (snd kv)) g then [] else [(WrapRE, x)]
  | _, _ => []
  end.
Fixpoint filled (w : option term) (t : term) : term :=
  match t with
  | TRule _ | TS _ | TRE _ | TREF _ _ | TExtRef _ | TStack _ => t
  | TSeq ts => TSeq (map (filled w) ts)
  | TOneof ts => TOneof (map (filled w) ts)
  | TDelim t sep a cs ce => TDelim (filled w t) (filled w sep) a cs ce
  | TLookAhead t => TLookAhead (filled w t)
  | TQuant t mn mx => TQuant (filled w t) mn mx
  | TNamed n t => TNamed n (filled w t)
  | TCut t => TCut (filled w t)
  | TScoped t g =>
      let w' := match lookup WrapRE g with Some x => Some x | None => w end in
      TScoped (filled w' t) (map (fun kv : string * term => (fst kv, filled w' (snd kv))) g ++ inherited w g)
  end.
Definition fill (g : grammar) : grammar := map (fun kv : string * term => (fst kv, filled (lookup WrapRE g) (snd kv))) g.

(** template.go:27-29: the expression in the generated [Grammar] function. *)
Definition generated (g : grammar) : bytes := gostring (make_grammar_string g).
(** For the grammar held by compiled parsers, terms.go:33 [Parsers.Grammar]. *)
Definition generated_code (ps : parsers) : bytes := generated (fill (p_grammar ps)).
