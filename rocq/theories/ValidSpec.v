(** What validation should report, as properties of nodes. *)
From Verif Require Import Base Scanner Syntax Engine Resolve Ast WbnfAst Walker WalkerSpec Build Recursion Validate NumSpec.

(** The text of a token that a node has, if it has one. *)
Definition says (name : string) (n : anode) (x : string) : Prop :=
  exists m more b, labelled name n = m :: more /\ node_text m = COk b /\ x = sb b.
(** A text that may be absent counts as empty. *)
Definition says_or_none (name : string) (n : anode) (x : string) : Prop :=
  says name n x \/ labelled name n = [] /\ x = ""%string.

(** The nodes that are entered in a walk that does not look into the nodes in [stop]. *)
Definition enters (stop : kind -> anode -> bool) (n : anode) (k : kind) (m : anode) : Prop :=
  exists evs, tour stop KGrammar n evs /\ In (Enter k m) evs.

(** The productions and macros of a text, without those of nested grammars, and their names in order. *)
Definition is_definition (k : kind) (m : anode) : bool := match k with KProd | KPragmaMacrodef => true | _ => false end.
Inductive titled : list event -> list string -> Prop :=
| titled_nil : titled [] []
| titled_prod m x evs xs : says_or_none "IDENT" m x -> titled evs xs -> titled (Enter KProd m :: evs) (x :: xs)
| titled_macro m x evs xs : says_or_none "name" m x -> titled evs xs -> titled (Enter KPragmaMacrodef m :: evs) (x :: xs)
| titled_other e evs xs : (forall m, e <> Enter KProd m) -> (forall m, e <> Enter KPragmaMacrodef m) -> titled evs xs -> titled (e :: evs) xs.
Definition names (n : anode) (xs : list string) : Prop := exists evs, tour is_definition KGrammar n evs /\ titled evs xs.
Definition macro_called (n : anode) (x : string) (m : anode) : Prop := enters is_definition n KPragmaMacrodef m /\ says_or_none "name" m x.

(** The number that a bound says; 0 if there is none. *)
Definition says_number (name : string) (q : anode) (k : nat) : Prop :=
  says_or_none name q "" /\ k = 0 \/ exists x, says name q x /\ numeral (bs x) k /\ is_int k.
(** The same identifier for two of the terms. *)
Inductive ident_of : anode -> string -> Prop :=
| ident_intro child named more x : labelled "named" child = named :: more -> says "IDENT" named x -> x <> ""%string -> ident_of child x.
Definition twice (ts : list anode) : Prop :=
  exists a t b u c x, ts = a ++ t :: b ++ u :: c /\ ident_of t x /\ ident_of u x.
(** A string of a list that is already one of the known ones, or occurs earlier in the list. *)
Definition taken (known : list string) (args : list string) : Prop :=
  exists a x b, args = a ++ x :: b /\ In x (known ++ a).

(** The problems of a node, when the definitions are [known] and the macros are [ms]. *)
Inductive fault (E : engine) (known : list string) (ms : string -> anode -> Prop) : kind -> anode -> verror -> Prop :=
| unknown_rule n x : says "IDENT" n x -> x <> "@"%string -> ~ In x known -> fault E known ms KAtom n UnknownRule
| invalid_regex n x : labelled "IDENT" n = [] -> says "RE" n x -> re_valid E (bs x) = false -> fault E known ms KAtom n InvalidRegex
| clash n x : says "IDENT" n x -> In x known -> fault E known ms KNamed n NameClashesWithRule
| bounds n mn mx : choice_of (Some n) = COk 1%Z -> says_number "min" n mn -> says_number "max" n mx -> 0 < mx -> mx < mn ->
    fault E known ms KQuant n MinMaxQuantError
| same_name n : labelled "grammar" n = [] -> one_op n = COk ""%string -> twice (labelled "term" n) -> fault E known ms KTerm n MultipleTermsWithSameName
| macro_clash n args : Forall2 (fun m x => exists b, node_text m = COk b /\ x = sb b) (labelled "args" n) args -> taken known args ->
    fault E known ms KPragmaMacrodef n NameClashesWithRule
| no_macro n x : says_or_none "name" n x -> (forall m, ~ ms x m) -> fault E known ms KMacrocall n NotAMacro
| wrong_count n x m : says_or_none "name" n x -> ms x m -> length (labelled "args" m) <> length (labelled "term" n) ->
    fault E known ms KMacrocall n IncorrectMacroArgCount.

(** Validation does not look into terms with nested grammars and bodies of macros. *)
Definition closed (k : kind) (m : anode) : bool :=
  match k with
  | KTerm => match labelled "grammar" m with [] => false | _ => true end
  | KPragmaMacrodef => true
  | _ => false
  end.
