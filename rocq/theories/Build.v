(** Model of the grammar builder in wbnf/compile.go:95-297: from the AST of a grammar text to the
    grammar.  The AST is seen through the typed view of [WbnfAst].  Dereferencing a nil node
    panics. *)
From Verif Require Import Base Scanner Syntax Resolve Ast WbnfAst Walker StrLit CutPoints.

(** [*p] for a pointer that may be nil. *)
Definition deref {A} (o : option A) : cres A := match o with Some x => COk x | None => CPanic end.
Definition opanic {A} (o : option A) : cres A := match o with Some x => COk x | None => CPanic end.
(** [strconv.Atoi] for the text of an INT node, which are digits; anything else counts as the
    error (the signs Atoi knows are not modelled). *)
Definition atoi_text (s : string) : option nat :=
  if (nonempty (bs s) && forallb is_digit (bs s))%bool
  then match atoi (bs s) with Some z => Some (Z.to_nat z) | None => None end
  else None.
(** compile.go:179-194, validation.go:180-195: an absent bound is 0. *)
Definition bound (n : option anode) : cres nat :=
  cbind (string_of n) (fun x => if String.eqb x "" then COk 0 else opanic (atoi_text x)).
(** terms.go:93-103 [NewAssociativity]. *)
Definition new_assoc (s : string) : cres assoc :=
  if String.eqb s ":" then COk NonAssociative
  else if String.eqb s ":>" then COk LeftToRight
  else if String.eqb s "<:" then COk RightToLeft
  else CPanic.

(** cutpoints.go:122-177 [fixTerm] with a callback that may panic and does not enter nested
    grammars (see [CutPoints.fix_term]). *)
Section FixTerm.
  Variable cb : term -> cres term.
  Fixpoint fix_termc (t : term) : cres term :=
    match t with
    | TSeq ts => cbind (ctraverse fix_termc ts) (fun ts => COk (TSeq ts))
    | TStack ts => cbind (ctraverse fix_termc ts) (fun ts => cb (TStack ts))
    | TOneof ts => cbind (ctraverse fix_termc ts) (fun ts => cb (TOneof ts))
    | TDelim t sep a cs ce =>
        cbind (fix_termc t) (fun t => cbind (fix_termc sep) (fun sep => cb (TDelim t sep a cs ce)))
    | TQuant t mn mx => cbind (fix_termc t) (fun t => cb (TQuant t mn mx))
    | TNamed n t => cbind (fix_termc t) (fun t => cb (TNamed n t))
    | TScoped t g => cbind (fix_termc t) (fun t => cb (TScoped t g))
    | TCut t => cbind (fix_termc t) (fun t => cb (TCut t))
    | TS _ | TREF _ _ | TRE _ | TRule _ | TExtRef _ | TLookAhead _ => cb t
    end.
End FixTerm.

Definition macros := list (string * anode).

Section Builder.
  (** The macros, and [buildTerm] for the recursive calls. *)
  Variables (ms : macros) (build_term : anode -> cres term).

  (** compile.go:107-111: the index of the argument named [r], if any. *)
  Fixpoint arg_index (r : string) (args : list anode) (i : nat) : cres (option nat) :=
    match args with
    | [] => COk None
    | arg :: args' => cbind (string_of (Some arg)) (fun x =>
        if String.eqb x r then COk (Some i) else arg_index r args' (S i))
    end.
  (** compile.go:99-116 [expandMacro]; a name that is no macro gives a nil node. *)
  Definition expand_macro (node : anode) : cres term :=
    cbind (string_of (one "name" node)) (fun name =>
    cbind (deref (lookup name ms)) (fun macro =>
    cbind (deref (one "term" macro)) (fun body =>
    cbind (build_term body) (fun t =>
    fix_termc (fun t =>
      match t with
      | TRule r => cbind (arg_index r (all "args" macro) 0) (fun i =>
          match i with
          | Some i => cbind (opanic (nth_error (all "term" node) i)) build_term
          | None => COk t
          end)
      | _ => COk t
      end) t)))).

  (** compile.go:118-165 [buildAtom]. *)
  Definition atom_kinds : list string :=
    ["RE"; "STR"; "macrocall"; "ExtRef"; "IDENT"; "REF"; "lookahead"; "term"]%string.
  Definition build_atom (atom : anode) : cres term :=
    match atom with
    | ABranch b =>
        let x := which b atom_kinds in
        let name := cbind (deref (node_one atom x)) node_text in
        if String.eqb x "IDENT" then cbind name (fun s => COk (TRule (sb s)))
        else if String.eqb x "STR" then cbind name (fun s => cbind (opanic (parse_string s)) (fun v => COk (TS v)))
        else if String.eqb x "RE" then cbind name (fun s => cbind (opanic (parse_regexp s)) (fun v => COk (TRE v)))
        else if String.eqb x "REF" then
          cbind (deref (one "REF" atom)) (fun ref =>
          cbind (string_of (one "IDENT" ref)) (fun ident =>
          cbind (string_of (one "default" ref)) (fun d =>
          if String.eqb d "" then COk (TREF ident None)
          else cbind (opanic (parse_string (bs d))) (fun v => COk (TREF ident (Some v))))))
        else if String.eqb x "ExtRef" then
          cbind (deref (one "ExtRef" atom)) (fun ref =>
          cbind (string_of (one "IDENT" ref)) (fun ident => COk (TExtRef ident)))
        else if String.eqb x "lookahead" then
          cbind (deref (one "lookahead" atom)) (fun t => cbind (build_term t) (fun u => COk (TLookAhead u)))
        else if String.eqb x "term" then cbind (deref (one "term" atom)) build_term
        else if String.eqb x "macrocall" then cbind (deref (one "macrocall" atom)) expand_macro
        else COk (TSeq [])
    | _ => CPanic
    end.

  (** compile.go:211-217 [buildNamed]. *)
  Definition build_named (n : anode) : cres term :=
    cbind (deref (one "atom" n)) (fun a =>
    cbind (build_atom a) (fun atom =>
    cbind (string_of (one "IDENT" n)) (fun ident =>
    COk (if String.eqb ident "" then atom else Eq_ ident atom)))).

  (** compile.go:167-209 [buildQuant]. *)
  Definition build_quant (q : anode) (t : term) : cres term :=
    cbind (choice_of (Some q)) (fun c =>
    if Z.eqb c 0 then
      cbind (one_op q) (fun op =>
      if String.eqb op "*" then COk (TQuant t 0 0)
      else if String.eqb op "?" then COk (Opt t)
      else if String.eqb op "+" then COk (Some_ t)
      else CPanic)
    else if Z.eqb c 1 then
      cbind (bound (one "min" q)) (fun mn => cbind (bound (one "max" q)) (fun mx => COk (TQuant t mn mx)))
    else if Z.eqb c 2 then
      cbind (one_op q) (fun op =>
      cbind (new_assoc op) (fun a =>
      cbind (deref (one "named" q)) (fun n =>
      cbind (build_named n) (fun sep =>
      cbind (one_token_of "opt_leading" q) (fun l =>
      cbind (one_token_of "opt_trailing" q) (fun r =>
      COk (TDelim t sep a (negb (String.eqb l "")) (negb (String.eqb r ""))))))))) 
    else CPanic).

  (** compile.go:261-271 [buildProd]. *)
  Definition build_prod (p : anode) : cres term :=
    cbind (ctraverse build_term (all "term" p)) (fun ts =>
    COk (match ts with [t] => t | _ => TSeq ts end)).

  (** compile.go:273-282 [buildGrammar]. *)
  Definition build_grammar (node : anode) : cres grammar :=
    fold_left (fun acc stmt =>
      cbind acc (fun g =>
      match one "prod" stmt with
      | None => COk g
      | Some prod =>
          cbind (build_prod prod) (fun t =>
          cbind (string_of (one "IDENT" prod)) (fun name => COk (aset name t g)))
      end)) (all "stmt" node) (COk []).
End Builder.

(** compile.go:219-259 [buildTerm]; [CDiv] is out of fuel. *)
Fixpoint build_term (ms : macros) (fuel : nat) (t : anode) {struct fuel} : cres term :=
  match fuel with
  | O => CDiv
  | S fuel =>
      let rec := build_term ms fuel in
      match all "term" t with
      | _ :: _ =>
          cbind (ctraverse rec (all "term" t)) (fun ts =>
          cbind (one_op t) (fun op =>
          if String.eqb op "|" then COk (TOneof ts)
          else if String.eqb op ">" then COk (TStack ts)
          else
            let inner := match ts with [x] => x | _ => TSeq ts end in
            match all "grammar" t with
            | [g] => cbind (build_grammar rec g) (fun nested => COk (TScoped inner nested))
            | _ => COk inner
            end))
      | [] =>
          cbind (deref (one "named" t)) (fun n =>
          cbind (build_named ms rec n) (fun x =>
          fold_left (fun acc q => cbind acc (build_quant ms rec q)) (rev (all "quant" t)) (COk x)))
      end
  end.

(** compile.go:284-293: the macros of a grammar, found by a walk. *)
Definition collect_macros (fuel : nat) (node : anode) : cres macros :=
  cbind (walk (fun k n st =>
                 match k with
                 | KPragmaMacrodef => cbind (string_of (one "name" n)) (fun name => COk (None, aset name n st))
                 | _ => COk (None, st)
                 end)
              (fun _ _ st => COk (None, st)) fuel KGrammar node [])
        (fun '(_, ms) => COk ms).

(** compile.go:284-297 [NewFromAst]. *)
Definition new_from_ast (fuel : nat) (node : anode) : cres grammar :=
  cbind (collect_macros fuel node) (fun ms =>
  cbind (build_grammar (build_term ms fuel) node) (fun g => COk (insert_cut_points g))).
