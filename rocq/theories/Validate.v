(** Model of wbnf/validation.go, and of the parts of wbnf/recursion.go that read the AST. *)
From Verif Require Import Base Scanner Syntax Engine Resolve Ast WbnfAst Walker Build Recursion.

(** * Danger terms *)

Section Dangers.
  Variable rec : anode -> cres (list string).
  (** recursion.go:110-112. *)
  Fixpoint choice_dangers (ts : list anode) (result : list string) : cres (list string) :=
    match ts with
    | [] => COk result
    | t :: ts' => cbind (rec t) (fun d => choice_dangers ts' (union result d))
    end.
  (** recursion.go:115-121. *)
  Fixpoint seq_dangers (ts : list anode) (result : list string) : cres (list string) :=
    match ts with
    | [] => COk result
    | t :: ts' => cbind (rec t) (fun d =>
        match d with [] => COk result | _ => seq_dangers ts' (union result (without "" d)) end)
    end.
End Dangers.

(** recursion.go:123-127: some quantifier asks for at least one. *)
Fixpoint required (qs : list anode) : cres bool :=
  match qs with
  | [] => COk false
  | q :: qs' =>
      cbind (one_op q) (fun op =>
      if String.eqb op "+" then COk true
      else cbind (match one "min" q with
                  | None => COk false
                  | Some m => cbind (string_of (Some m)) (fun x => COk (negb (String.eqb x "0")))
                  end) (fun some =>
           if some then COk true
           else match one "named" q with Some _ => COk true | None => required qs' end))
  end.

(** recursion.go:105-140 [getSequenceDangerTerms]; [CDiv] is out of fuel. *)
Fixpoint danger_terms (fuel : nat) (tree : anode) {struct fuel} : cres (list string) :=
  match fuel with
  | O => CDiv
  | S fuel =>
      cbind (one_op tree) (fun op =>
      if String.eqb op "|" then choice_dangers (danger_terms fuel) (all "term" tree) []
      else match all "term" tree with
           | _ :: _ => seq_dangers (danger_terms fuel) (all "term" tree) []
           | [] =>
               cbind (required (all "quant" tree)) (fun r =>
               if r then COk []
               else cbind (deref (one "named" tree)) (fun named =>
                    cbind (deref (one "atom" named)) (fun atom =>
                    match one "term" atom with
                    | Some t => cbind (danger_terms fuel t) (fun d => COk (union [] d))
                    | None =>
                        match one "IDENT" atom with
                        | Some ident => cbind (string_of (Some ident)) (fun x => COk (with_ x []))
                        | None => COk (match all "quant" tree with [] => [] | _ => with_ ""%string [] end)
                        end
                    end)))
           end)
  end.

(** recursion.go:24-34: the danger terms of every production that the walk reaches. *)
Definition prod_dangers (fuel : nat) (p : anode) : cres (list string) :=
  choice_dangers (danger_terms fuel) (all "term" p) [].
Definition collect_dangers (fuel : nat) (tree : anode) : cres graph :=
  cbind (walk (fun k n st =>
                 match k with
                 | KProd => cbind (prod_dangers fuel n) (fun td =>
                            cbind (string_of (one "IDENT" n)) (fun name => COk (Some NodeExiter, aset name td st)))
                 | _ => COk (None, st)
                 end)
              (fun _ _ st => COk (None, st)) fuel KGrammar tree [])
        (fun '(_, d) => COk d).

(** Go's choices: the growth of slices, and the orders of map iteration. *)
Record runtime := mkRuntime {
  rt_grow : nat -> nat;                                   (* capacities of appended slices *)
  rt_keys : graph -> list string;                         (* the order of the map of dangers *)
  rt_ord : list string -> list string -> list string      (* the order of [node.next] along a path *)
}.

(** recursion.go:23-59 [checkForRecursion]: whether it returns an error. *)
Definition check_for_recursion (rt : runtime) (fuel : nat) (tree : anode) : cres bool :=
  cbind (collect_dangers fuel tree) (fun d =>
  match has_cycle (rt_grow rt) (rt_ord rt) (rt_keys rt d) d with
  | Some b => COk b
  | None => CDiv
  end).

(** * Validation *)

(** validation.go:65-78 [validationErrorKind]. *)
Inductive verror :=
| UnknownRule | DuplicatedRule | InvalidRegex | NameClashesWithRule | MinMaxQuantError
| MultipleTermsWithSameName | PossibleCycleDetected | NotAMacro | IncorrectMacroArgCount.

(** validation.go:13-42 [findDefinedRules]: the duplicates, the names and the macros. *)
Record defined := mkDefined { d_dupes : list string; d_names : list string; d_macros : macros }.
Definition add_rule (x : string) (d : defined) : defined :=
  mkDefined (if mem x (d_names d) then d_dupes d ++ [x] else d_dupes d) (with_ x (d_names d)) (d_macros d).
Definition find_defined_rules (fuel : nat) (tree : anode) : cres defined :=
  cbind (walk (fun k n st =>
                 match k with
                 | KProd => cbind (string_of (one "IDENT" n)) (fun x => COk (Some NodeExiter, add_rule x st))
                 | KPragmaMacrodef => cbind (string_of (one "name" n)) (fun x =>
                     let st := add_rule x st in
                     COk (Some NodeExiter, mkDefined (d_dupes st) (d_names st) (aset x n (d_macros st))))
                 | _ => COk (None, st)
                 end)
              (fun _ _ st => COk (None, st)) fuel KGrammar tree (mkDefined [] [] []))
        (fun '(_, d) => COk d).

(** validation.go:101-105 [validator]; the errors as their kinds. *)
Record validator := mkValidator { v_known : list string; v_err : list verror }.
Definition report (e : verror) (v : validator) : validator := mkValidator (v_known v) (v_err v ++ [e]).

(** validation.go:129-140: identifiers used for two children. *)
Fixpoint name_clashes (ts : list anode) (names : list string) (v : validator) : cres validator :=
  match ts with
  | [] => COk v
  | child :: ts' =>
      match one "named" child with
      | None => name_clashes ts' names v
      | Some named =>
          cbind (string_of (one "IDENT" named)) (fun x =>
          if String.eqb x "" then name_clashes ts' names v
          else name_clashes ts' (with_ x names) (if mem x names then report MultipleTermsWithSameName v else v))
      end
  end.
(** validation.go:123-143 [validateTerm]. *)
Definition validate_term (t : anode) (v : validator) : cres (option stopper * validator) :=
  match all "grammar" t with
  | _ :: _ => COk (Some NodeExiter, v)
  | [] => cbind (one_op t) (fun op =>
          if String.eqb op "" then cbind (name_clashes (all "term" t) [] v) (fun v => COk (None, v))
          else COk (None, v))
  end.
(** validation.go:145-153 [validateNamed]. *)
Definition validate_named (t : anode) (v : validator) : cres (option stopper * validator) :=
  match one "IDENT" t with
  | None => COk (None, v)
  | Some x => cbind (string_of (Some x)) (fun s =>
              COk (None, if mem s (v_known v) then report NameClashesWithRule v else v))
  end.
(** validation.go:155-174 [validateAtom]; the text of a regexp is compiled as it is written. *)
Definition validate_atom (E : engine) (t : anode) (v : validator) : cres (option stopper * validator) :=
  match one "IDENT" t with
  | Some x => cbind (string_of (Some x)) (fun s =>
              COk (None, if String.eqb s "@" then v else if mem s (v_known v) then v else report UnknownRule v))
  | None =>
      match one "RE" t with
      | Some x => cbind (string_of (Some x)) (fun s =>
                  COk (None, if re_valid E (bs s) then v else report InvalidRegex v))
      | None => COk (None, v)
      end
  end.
(** validation.go:176-205 [validateQuant]. *)
Definition validate_quant (t : anode) (v : validator) : cres (option stopper * validator) :=
  cbind (choice_of (Some t)) (fun c =>
  if Z.eqb c 1 then
    cbind (bound (one "min" t)) (fun mn => cbind (bound (one "max" t)) (fun mx =>
    COk (None, if (negb (Nat.eqb mn 0) && negb (Nat.eqb mx 0) && Nat.ltb mx mn)%bool then report MinMaxQuantError v else v)))
  else COk (None, v)).
(** validation.go:207-221 [validateMacro].  Line 219 passes a pointer to [Walk], whose type
    switch has only the value types: nothing is walked.  The known rules are restored on return. *)
Fixpoint macro_args (args : list anode) (v : validator) : cres validator :=
  match args with
  | [] => COk v
  | arg :: args' =>
      cbind (string_of (Some arg)) (fun x =>
      macro_args args' (if mem x (v_known v) then report NameClashesWithRule v
                        else mkValidator (with_ x (v_known v)) (v_err v)))
  end.
Definition validate_macro (t : anode) (v : validator) : cres (option stopper * validator) :=
  cbind (macro_args (all "args" t) v) (fun v' => COk (Some NodeExiter, mkValidator (v_known v) (v_err v'))).
(** validation.go:223-236 [validateMacroCall]. *)
Definition validate_macro_call (ms : macros) (t : anode) (v : validator) : cres (option stopper * validator) :=
  cbind (string_of (one "name" t)) (fun name =>
  COk (None, match lookup name ms with
             | None => report NotAMacro v
             | Some macro => if Nat.eqb (length (all "args" macro)) (length (all "term" t)) then v
                             else report IncorrectMacroArgCount v
             end)).
(** validation.go:107-117 [walk]. *)
Definition validator_ops (E : engine) (ms : macros) (k : kind) (n : anode) (v : validator)
  : cres (option stopper * validator) :=
  match k with
  | KAtom => validate_atom E n v
  | KQuant => validate_quant n v
  | KNamed => validate_named n v
  | KTerm => validate_term n v
  | KPragmaMacrodef => validate_macro n v
  | KMacrocall => validate_macro_call ms n v
  | _ => COk (None, v)
  end.
Definition run_validator (E : engine) (ms : macros) (fuel : nat) (tree : anode) (v : validator) : cres validator :=
  cbind (walk (validator_ops E ms) (fun _ _ v => COk (None, v)) fuel KGrammar tree v) (fun '(_, v) => COk v).

(** validation.go:44-63 [validate]: the kinds of the errors; none means that the grammar is accepted. *)
Definition validate (E : engine) (rt : runtime) (fuel : nat) (tree : anode) : cres (list verror) :=
  cbind (find_defined_rules fuel tree) (fun d =>
  match d_dupes d with
  | _ :: _ => COk [DuplicatedRule]
  | [] =>
      cbind (run_validator E (d_macros d) fuel tree (mkValidator (d_names d) [])) (fun v =>
      cbind (check_for_recursion rt fuel tree) (fun cyclic =>
      COk (v_err v ++ if cyclic then [PossibleCycleDetected] else [])))
  end).
