(** Model of the commands of cmd/test.go and cmd/gen.go: what is shown and how they end.
    What is shown is kept as the value printed; its text is that of [NodeString] or [Treeview].  The logs go elsewhere and are left out, so that the flag v has no effect. *)
From Verif Require Import Base Scanner Syntax Engine Resolve Compile Parse Ast WbnfAst Walker Build Recursion Validate Front Paths Types.

(** cmd/test.go:18-69: the flags; those not given are empty. *)
Record flags := mkFlags { f_grammar : string; f_start : string; f_input : string; f_tree : bool }.
(** What [fmt.Println] is given: the view of a tree or a node. *)
Inductive shown := ShowTree (label : string) (n : anode) | ShowNode (n : anode).
(** cmd/test.go:118-132, 141-143, 150, 159-161: the errors returned, and the values that the command panics with. *)
Inductive failing := NoInput | NoStartRule | NoParse (e : perr).
Inductive panicking := NoGrammarFile | NoStartFlag | BadGrammar (e : front_error) | Runtime.
Inductive ending := Success | Fails (e : failing) | Panics (p : panicking).
Record outcome := mkOutcome { o_shown : list shown; o_end : ending }.

(** cmd/main.go:29-32 and cmd/test.go:111-116: the exit code. *)
Definition exit_code (o : outcome) : nat := match o_end o with Success => 0 | _ => 1 end.

(** A Go panic inside a step becomes the end of the command: cmd/test.go:111-116; what was shown before stays. *)
Definition caught {A} (before : list shown) (x : cres A) (k : A -> cres outcome) : cres outcome :=
  match x with COk a => k a | CPanic => COk (mkOutcome before (Panics Runtime)) | CDiv => CDiv end.

Section Commands.
  (** [rnd] are the random numbers of the parse of the input; [stdin] is what can be read there; None is an error. *)
  Variables (w : world) (wbnf : parsers) (rnd : nat -> Z) (stdin : option bytes).

  (** cmd/test.go:82-84: the resolver for the imports of a file. *)
  Definition resolving (file : string) : world :=
    mkWorld (w_engine w) (w_rnd w) (w_runtime w) (w_join w) (w_clean w) (w_read w) (Some (make_resolver file)).
  (** cmd/test.go:118-132. *)
  Definition read_input (source : string) : option bytes :=
    if (String.eqb source "" || String.eqb source "-")%bool then stdin else w_read w source.
  (** cmd/test.go:99-103 and 154-158. *)
  Definition show (fl : flags) (label : string) (n : anode) : shown := if f_tree fl then ShowTree label n else ShowNode n.

  (** cmd/test.go:97-106 [testWbnfFile]; [load_text] and [compile_text] are the parts of [Compile] that it needs: the node kept with the parsers and the parsers. *)
  Definition test_grammar (fl : flags) (depth fuel : nat) (txt : bytes) : cres outcome :=
    caught [] (compile_text (resolving (f_input fl)) wbnf depth fuel txt) (fun r =>
    match r with
    | inl e => COk (mkOutcome [] (Panics (BadGrammar e)))
    | inr _ => caught [] (load_text (resolving (f_input fl)) wbnf depth fuel txt) (fun r =>
        match r with
        | inl e => COk (mkOutcome [] (Panics (BadGrammar e)))
        | inr n => COk (mkOutcome [show fl "grammar" n] Success)
        end)
    end).

  (** cmd/test.go:86-95 [loadTestGrammar], for the parsers. *)
  Definition load_test_grammar (file start : string) (depth fuel : nat) : cres (panicking + parsers) :=
    match w_read w file with
    | None => COk (inl NoGrammarFile)
    | Some txt =>
        if String.eqb start "" then COk (inl NoStartFlag)
        else cbind (compile_text (resolving file) wbnf depth fuel txt) (fun r =>
             COk (match r with inl e => inl (BadGrammar e) | inr ps => inr ps end))
    end.

  (** cmd/test.go:144-163: parse, convert, show; [pf] bounds the parse and the conversion. *)
  Definition test_text (fl : flags) (ps : parsers) (pf : nat) (input : bytes) : cres outcome :=
    let file := f_input fl in
    let convert (v : tree) (e : ending) :=
      caught [] (from_parser_node pf (p_grammar ps) v) (fun '(b, _) => COk (mkOutcome [show fl (f_start fl) (ABranch b)] e)) in
    match parse_rule (mkConfig (w_engine w) [] None rnd) pf ps (f_start fl) (mkScanner (Some (mkSource input file)) 0 (blen input)) with
    | (ROk v, _) => convert v Success
    | (RErr (EUnconsumed rest v), _) => convert v (Fails (NoParse (EUnconsumed rest v)))
    | (RErr e, _) => COk (mkOutcome [] (Fails (NoParse e)))
    | (RPanic, _) => COk (mkOutcome [] (Panics Runtime))
    | (RFuel, _) => CDiv
    end.

  (** cmd/test.go:108-164 [test]. *)
  Definition run_test (fl : flags) (depth fuel pf : nat) : cres outcome :=
    match read_input (f_input fl) with
    | None => COk (mkOutcome [] (Fails NoInput))
    | Some input =>
        if String.eqb (f_grammar fl) "" then test_grammar fl depth fuel input
        else caught [] (load_test_grammar (f_grammar fl) (f_start fl) depth fuel) (fun r =>
             match r with
             | inl p => COk (mkOutcome [] (Panics p))
             | inr ps =>
                 match lookup (f_start fl) (p_rules ps) with
                 | None => COk (mkOutcome [] (Fails NoStartRule))
                 | Some _ => test_text fl ps pf input
                 end
             end)
    end.

  (** cmd/gen.go:54-88 [gen].  [render] stands for the template and [go/format], given the package, the start rule, the types and the grammar; [writes] says which files
      can be written.  The panics are not caught here: the command then ends with exit code 2. *)
  Inductive gen_ending := Generated | RenderError | GenPanics.
  Record gen_outcome := mkGen { g_stdout : option bytes; g_files : list (string * bytes); g_end : gen_ending }.
  Definition gen_code (o : gen_outcome) : nat := match g_end o with Generated => 0 | RenderError => 1 | GenPanics => 2 end.
  Variables (camel : string -> string) (ids : nat -> Z) (render : string -> string -> list decl -> grammar -> option bytes) (writes : string -> bool).
  Definition run_gen (file pkg start out : string) (depth fuel : nat) : cres gen_outcome :=
    let crash {A} (x : cres A) (k : A -> cres gen_outcome) : cres gen_outcome :=
      match x with COk a => k a | CPanic => COk (mkGen None [] GenPanics) | CDiv => CDiv end in
    crash (load_test_grammar file start depth fuel) (fun r =>
    match r, w_read w file with
    | inr ps, Some txt =>
        crash (build_text (resolving file) wbnf depth fuel txt) (fun r =>
        match r with
        | inr g =>
            crash (generated_types camel ids g) (fun ds =>
            match render pkg start ds (p_grammar ps) with
            | None => COk (mkGen None [] RenderError)
            | Some code =>
                COk (if (String.eqb out "" || String.eqb out "-")%bool then mkGen (Some code) [] Generated
                     else mkGen None (if writes out then [(out, code)] else []) Generated)
            end)
        | inl _ => COk (mkGen None [] GenPanics)
        end)
    | _, _ => COk (mkGen None [] GenPanics)
    end).
End Commands.
