(** Model of the entry points of the wbnf package: wbnf/compile.go:299-380 and wbnfgrammar.go:1449-1460.
    The operating system, [filepath.Join] and [filepath.Clean] are parameters. *)
From Verif Require Import Base Scanner Syntax Engine Resolve Compile Parse WbnfGrammar Ast WbnfAst Walker Build Recursion Validate.

(** The surroundings of a compilation. *)
Record world := mkWorld {
  w_engine : engine;
  w_rnd : nat -> Z;                                  (* the random numbers of a parse *)
  w_runtime : runtime;
  w_join : list string -> string;                    (* filepath.Join *)
  w_clean : string -> string;                        (* filepath.Clean *)
  w_read : string -> option bytes;                   (* os.ReadFile; None is an error *)
  w_resolve : option (string -> string -> string)    (* the ImportResolver, if any *)
}.

Inductive front_error := BadSyntax | NoFile | Invalid (es : list verror).

(** The state of wbnfgrammar.go:11-109 [Grammar]: the parsers of the wbnf grammar and the grammar
    with resolved stacks. *)
Section Front.
  Variables (w : world) (wbnf : parsers).

  (** wbnfgrammar.go:1449-1456 [Parse]: the AST of a grammar text.  [FromParserNode] changes the
      grammar it is given (the nested grammar of pragma); each call of [Grammar] makes a new one. *)
  Definition parse_text (fuel : nat) (filename : string) (txt : bytes) : cres (front_error + anode) :=
    match parse_rule (mkConfig (w_engine w) [] None (w_rnd w)) fuel wbnf "grammar"
                     (mkScanner (Some (mkSource txt filename)) 0 (blen txt)) with
    | (ROk v, _) => cbind (from_parser_node fuel (p_grammar wbnf) v) (fun '(b, _) => COk (inr (ABranch b)))
    | (RErr _, _) => COk (inl BadSyntax)
    | (RPanic, _) => CPanic
    | (RFuel, _) => CDiv
    end.

  (** compile.go:299-302 [mergeGrammarNodes]; the type assertions may panic. *)
  Definition merge_nodes (a b : anode) : cres anode :=
    match a, b with
    | ABranch x, ABranch y =>
        match lookup "stmt"%string x with
        | Some (Many l) => COk (ABranch (aset "stmt"%string (Many (l ++ get_many y "stmt")) x))
        | _ => CPanic
        end
    | _, _ => CPanic
    end.

  (** The state of the walk over the imports of one file: the grammar so far, the last error and
      the files loaded. *)
  Record loading := mkLoading { l_node : anode; l_err : option front_error; l_imports : list (string * anode) }.

  Section Make.
    Variable load : string -> list (string * anode) -> cres ((front_error + anode) * list (string * anode)).
    (** compile.go:320-335: the callback for an import.  It returns an [Aborter] on errors. *)
    Definition import_node (filename : string) (n : anode) (st : loading) : cres (option stopper * loading) :=
      cbind (deref (one "path" n)) (fun path =>
      cbind (all_tokens path) (fun toks =>
      let p := w_join w toks in
      let p := match w_resolve w with Some f => f filename p | None => p end in
      cbind (load p (l_imports st)) (fun '(r, imports) =>
      match r with
      | inl e => COk (Some Aborter, mkLoading (l_node st) (Some e) imports)
      | inr nested => cbind (merge_nodes (l_node st) nested) (fun m => COk (None, mkLoading m (l_err st) imports))
      end))).
    (** compile.go:314-341 [makeGrammar]. *)
    Definition make_grammar (fuel : nat) (filename : string) (txt : bytes) (imports : list (string * anode))
      : cres ((front_error + anode) * list (string * anode)) :=
      cbind (parse_text fuel filename txt) (fun r =>
      match r with
      | inl e => COk (inl e, imports)
      | inr node =>
          cbind (walk (fun k n st => match k with KPragmaImport => import_node filename n st | _ => COk (None, st) end)
                      (fun _ _ st => COk (None, st)) fuel KGrammar node (mkLoading node None imports))
                (fun '(_, st) =>
                 COk (match l_err st with Some e => inl e | None => inr (l_node st) end, l_imports st))
      end).
  End Make.

  (** compile.go:343-357 [loadGrammarFile]; imports nest, so this is bounded by fuel. *)
  Fixpoint load_grammar_file (depth fuel : nat) (filename : string) (imports : list (string * anode)) {struct depth}
    : cres ((front_error + anode) * list (string * anode)) :=
    match depth with
    | O => CDiv
    | S depth =>
        let filename := w_clean w filename in
        match lookup filename imports with
        | Some g => COk (inr g, imports)
        | None =>
            match w_read w filename with
            | None => COk (inl NoFile, imports)
            | Some txt =>
                cbind (make_grammar (load_grammar_file depth fuel) fuel filename txt imports) (fun '(r, imports) =>
                match r with
                | inl e => COk (inl e, imports)
                | inr g => COk (inr g, aset filename g imports)
                end)
            end
        end
    end.

  (** compile.go:359-372 [Compile]; [compile] is the model of parser.go:98-136. *)
  Definition load_text (depth fuel : nat) (txt : bytes) : cres (front_error + anode) :=
    cbind (make_grammar (load_grammar_file depth fuel) fuel "" txt []) (fun '(r, _) => COk r).
  Definition build_text (depth fuel : nat) (txt : bytes) : cres (front_error + grammar) :=
    cbind (load_text depth fuel txt) (fun r =>
    match r with
    | inl e => COk (inl e)
    | inr node =>
        cbind (validate (w_engine w) (w_runtime w) fuel node) (fun es =>
        match es with
        | _ :: _ => COk (inl (Invalid es))
        | [] => cbind (new_from_ast fuel node) (fun g => COk (inr g))
        end)
    end).
  Definition compile_text (depth fuel : nat) (txt : bytes) : cres (front_error + parsers) :=
    cbind (build_text depth fuel txt) (fun r =>
    match r with
    | inl e => COk (inl e)
    | inr g => cbind (compile (w_engine w) g) (fun ps => COk (inr ps))
    end).
End Front.
