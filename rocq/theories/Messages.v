(** Model of the texts of the errors of wbnf/validation.go and wbnf/recursion.go: [Validate] with whole errors in place of their kinds. *)
From Verif Require Import Base Scanner Syntax Engine Resolve Ast WbnfAst Walker Build Recursion Validate Treeview.

(** [fmt.Sprintf] with strings (also errors, given as their texts) and ints.  Only %s, %d and %% are modelled; [None] stands for other verbs and
    for the texts with %! in them that fmt gives for arguments that are missing, left over or of the wrong type. *)
Inductive farg := FText (b : bytes) | FNum (z : Z).
Fixpoint sprintf (f : bytes) (args : list farg) : option bytes :=
  match f with
  | [] => match args with [] => Some [] | _ => None end
  | c :: f' =>
      if Ascii.eqb c "%" then
        match f' with
        | v :: f'' =>
            if Ascii.eqb v "s" then match args with FText b :: args' => option_map (app b) (sprintf f'' args') | _ => None end
            else if Ascii.eqb v "d" then match args with FNum z :: args' => option_map (app (decz z)) (sprintf f'' args') | _ => None end
            else if Ascii.eqb v "%" then option_map (cons "%"%char) (sprintf f'' args)
            else None
        | [] => None
        end
      else option_map (cons c) (sprintf f' args)
  end.

(** validation.go:80-85 [validationError]. *)
Record message := mkMessage { m_kind : verror; m_at : scanner; m_msg : bytes; m_args : list farg }.
(** validation.go:87-99 [validationError.Error]; [COk None] as for [sprintf]. *)
Definition message_text (m : message) : cres (option bytes) :=
  match sstring (m_at m) with
  | None => CPanic
  | Some [] => COk (sprintf (m_msg m) [])
  | Some x => COk (sprintf (m_msg m ++ bs "@ %d") (FText x :: m_args m ++ [FNum (offset (m_at m))]))
  end.

(** [Scanner()] of a node. *)
Definition place_of (n : anode) : cres scanner := match node_scanner n with Some s => COk s | None => CPanic end.
(** [fmt.Sprintf] of the texts that are made before the error: they have no % but those of the verbs. *)
Definition formatted (f : string) (args : list farg) : bytes := match sprintf (bs f) args with Some b => b | None => [] end.
(** %s of a []string. *)
Definition bracketed (xs : list bytes) : bytes := bs "[" ++ join_sep (bs " ") xs ++ bs "]".

Section Validator.
  (** [re_error] is the text of the error of [regexp.Compile]. *)
  Variables (E : engine) (re_error : bytes -> bytes).

  (** validation.go:101-105 [validator]. *)
  Record reporter := mkReporter { r_known : list string; r_msgs : list message }.
  Definition add (m : message) (r : reporter) : reporter := mkReporter (r_known r) (r_msgs r ++ [m]).
  Definition complain (k : verror) (msg : string) (at_ : anode) (args : list farg) (r : reporter) : cres reporter :=
    cbind (place_of at_) (fun s => COk (add (mkMessage k s (bs msg) args) r)).

  (** validation.go:129-140. *)
  Fixpoint clash_messages (ts : list anode) (names : list string) (r : reporter) : cres reporter :=
    match ts with
    | [] => COk r
    | child :: ts' =>
        match one "named" child with
        | None => clash_messages ts' names r
        | Some named =>
            match one "IDENT" named with
            | None => clash_messages ts' names r
            | Some ident =>
                cbind (string_of (Some ident)) (fun x =>
                if String.eqb x "" then clash_messages ts' names r
                else cbind (if mem x names
                            then complain MultipleTermsWithSameName "identifier '%s' is being used multiple times in a single term" ident [] r
                            else COk r)
                     (fun r => clash_messages ts' (with_ x names) r))
            end
        end
    end.
  (** validation.go:123-143 [validateTerm]. *)
  Definition term_messages (t : anode) (r : reporter) : cres (option stopper * reporter) :=
    match all "grammar" t with
    | _ :: _ => COk (Some NodeExiter, r)
    | [] => cbind (one_op t) (fun op =>
            if String.eqb op "" then cbind (clash_messages (all "term" t) [] r) (fun r => COk (None, r))
            else COk (None, r))
    end.
  (** validation.go:145-153 [validateNamed]. *)
  Definition named_messages (t : anode) (r : reporter) : cres (option stopper * reporter) :=
    match one "IDENT" t with
    | None => COk (None, r)
    | Some x =>
        cbind (string_of (Some x)) (fun s =>
        cbind (if mem s (r_known r) then complain NameClashesWithRule "identifier '%s' clashes with a defined rule" x [] r else COk r)
              (fun r => COk (None, r)))
    end.
  (** validation.go:155-174 [validateAtom]. *)
  Definition atom_messages (t : anode) (r : reporter) : cres (option stopper * reporter) :=
    match one "IDENT" t with
    | Some x =>
        cbind (string_of (Some x)) (fun s =>
        cbind (if String.eqb s "@" then COk r else if mem s (r_known r) then COk r
               else complain UnknownRule "identifier '%s' is not a defined rule" x [] r) (fun r => COk (None, r)))
    | None =>
        match one "RE" t with
        | Some x =>
            cbind (string_of (Some x)) (fun s =>
            cbind (if re_valid E (bs s) then COk r
                   else complain InvalidRegex "regex '%s' is not valid, %s" x [FText (re_error (bs s))] r) (fun r => COk (None, r)))
        | None => COk (None, r)
        end
    end.
  (** validation.go:176-205 [validateQuant]. *)
  Definition quant_messages (t : anode) (r : reporter) : cres (option stopper * reporter) :=
    cbind (choice_of (Some t)) (fun c =>
    if Z.eqb c 1 then
      cbind (bound (one "min" t)) (fun mn => cbind (bound (one "max" t)) (fun mx =>
      COk (None, if (negb (Nat.eqb mn 0) && negb (Nat.eqb mx 0) && Nat.ltb mx mn)%bool
                 then add (mkMessage MinMaxQuantError zero_scanner
                             (formatted "quant: min (%d) > max (%d)" [FNum (Z.of_nat mn); FNum (Z.of_nat mx)]) []) r
                 else r)))
    else COk (None, r)).
  (** validation.go:207-221 [validateMacro]. *)
  Fixpoint arg_messages (args : list anode) (r : reporter) : cres reporter :=
    match args with
    | [] => COk r
    | arg :: args' =>
        cbind (string_of (Some arg)) (fun x =>
        cbind (if mem x (r_known r) then complain NameClashesWithRule "macro arg '%s' clashes with a defined rule" arg [] r
               else COk (mkReporter (with_ x (r_known r)) (r_msgs r)))
              (arg_messages args'))
    end.
  Definition macro_messages (t : anode) (r : reporter) : cres (option stopper * reporter) :=
    cbind (arg_messages (all "args" t) r) (fun r' => COk (Some NodeExiter, mkReporter (r_known r) (r_msgs r'))).
  (** validation.go:223-236 [validateMacroCall]; line 226 panics for a call without name (which [Validate] lets pass: no text has one). *)
  Definition call_messages (ms : macros) (t : anode) (r : reporter) : cres (option stopper * reporter) :=
    cbind (string_of (one "name" t)) (fun name =>
    cbind (match lookup name ms with
           | None => cbind (deref (one "name" t)) (fun at_ => complain NotAMacro "Attempting to call %s which is not a macro" at_ [] r)
           | Some macro =>
               if Nat.eqb (length (all "args" macro)) (length (all "term" t)) then COk r
               else COk (add (mkMessage IncorrectMacroArgCount zero_scanner
                                (formatted "Macro %s expected %d args, given %d"
                                   [FText (bs name); FNum (Z.of_nat (length (all "args" macro))); FNum (Z.of_nat (length (all "term" t)))]) []) r)
           end) (fun r => COk (None, r))).
  (** validation.go:107-117 [walk]. *)
  Definition reporter_ops (ms : macros) (k : kind) (n : anode) (r : reporter) : cres (option stopper * reporter) :=
    match k with
    | KAtom => atom_messages n r
    | KQuant => quant_messages n r
    | KNamed => named_messages n r
    | KTerm => term_messages n r
    | KPragmaMacrodef => macro_messages n r
    | KMacrocall => call_messages ms n r
    | _ => COk (None, r)
    end.
  Definition run_reporter (ms : macros) (fuel : nat) (tree : anode) (r : reporter) : cres reporter :=
    cbind (walk (reporter_ops ms) (fun _ _ r => COk (None, r)) fuel KGrammar tree r) (fun '(_, r) => COk r).

  (** recursion.go:36-51: the routes with a name that occurs twice, as they are read when all are found. *)
  Definition bad_routes (rt : runtime) (d : graph) : option (list (list string)) :=
    match walk_rules (graph_fuel d) d (rt_keys rt d) with
    | Some g =>
        match find_paths (rt_grow rt) (rt_ord rt) g (graph_fuel d) [] [] nil_slice [] with
        | Some (ps, h) => Some (map (read h) (filter (bad_route h) ps))
        | None => None
        end
    | None => None
    end.
  (** recursion.go:49 and 54: routes one per line. *)
  Definition route_text (p : list string) : bytes := join_sep (bs " > ") (map bs p).
  Definition cycle_text (routes : list (list string)) : bytes :=
    bs "Possible cycle(s) detected: " ++ [nl; "009"%char] ++ join_sep [nl; "009"%char] (map route_text routes).
  (** recursion.go:23-59 [checkForRecursion]. *)
  Definition cycle_messages (rt : runtime) (fuel : nat) (tree : anode) : cres (list message) :=
    cbind (collect_dangers fuel tree) (fun d =>
    match bad_routes rt d with
    | Some [] => COk []
    | Some routes => COk [mkMessage PossibleCycleDetected zero_scanner (cycle_text routes) []]
    | None => CDiv
    end).

  (** validation.go:36-42. *)
  Definition duplicates_text (dupes : list string) : bytes :=
    bs "the following rule(s) are defined multiple times: " ++ bracketed (map bs dupes).
  (** validation.go:44-63 [validate]: no error, an error alone, or a validator with its errors. *)
  Inductive failure := Alone (m : message) | Collected (ms : list message).
  Definition validate_messages (rt : runtime) (fuel : nat) (tree : anode) : cres failure :=
    cbind (find_defined_rules fuel tree) (fun d =>
    match d_dupes d with
    | _ :: _ => COk (Alone (mkMessage DuplicatedRule zero_scanner (duplicates_text (d_dupes d)) []))
    | [] =>
        cbind (run_reporter (d_macros d) fuel tree (mkReporter (d_names d) [])) (fun r =>
        cbind (cycle_messages rt fuel tree) (fun cs => COk (Collected (r_msgs r ++ cs))))
    end).
End Validator.

Definition messages (f : failure) : list message := match f with Alone m => [m] | Collected ms => ms end.
(** validation.go:119-121 [validator.Error]: [fmt.Sprint] of the errors. *)
Fixpoint all_texts (ms : list message) : cres (option (list bytes)) :=
  match ms with
  | [] => COk (Some [])
  | m :: ms' => cbind (message_text m) (fun t => cbind (all_texts ms') (fun ts =>
                COk (match t, ts with Some t, Some ts => Some (t :: ts) | _, _ => None end)))
  end.
Definition failure_text (f : failure) : cres (option bytes) :=
  match f with
  | Alone m => message_text m
  | Collected ms => cbind (all_texts ms) (fun ts => COk (option_map bracketed ts))
  end.
