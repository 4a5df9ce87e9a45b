(** What the texts of validation errors should say. *)
From Verif Require Import Base Scanner Syntax Engine Resolve Ast WbnfAst Walker WalkerSpec Build Recursion Validate Treeview ValidSpec NumSpec.
Local Open Scope list_scope.

(** A token of a node, as the place [s] and its text [x]. *)
Definition located_at (m : anode) (s : scanner) (x : bytes) : Prop := node_scanner m = Some s /\ sstring s = Some x.
Definition token_at (name : string) (n : anode) (s : scanner) (x : bytes) : Prop :=
  exists m more, labelled name n = m :: more /\ located_at m s x.

(** A text that quotes the token [x] and gives the offset of its place. *)
Definition quoting (before : string) (x after : bytes) (s : scanner) : bytes := bs before ++ x ++ after ++ bs "@ " ++ decz (start s).

(** [complaint E err known ms k n t]: the text [t] tells a fault of the node [n], which has the kind [k], when the definitions are [known]
    and the macros [ms]; [err] gives the errors of regular expressions. *)
Inductive complaint (E : engine) (err : bytes -> bytes) (known : list string) (ms : string -> anode -> Prop) : kind -> anode -> bytes -> Prop :=
| unknown_text n s x : token_at "IDENT" n s x -> x <> bs "@" -> ~ In (sb x) known ->
    complaint E err known ms KAtom n (quoting "identifier '" x (bs "' is not a defined rule") s)
| regex_text n s x : labelled "IDENT" n = [] -> token_at "RE" n s x -> re_valid E x = false ->
    complaint E err known ms KAtom n (quoting "regex '" x (bs "' is not valid, " ++ err x) s)
| clash_text n s x : token_at "IDENT" n s x -> In (sb x) known ->
    complaint E err known ms KNamed n (quoting "identifier '" x (bs "' clashes with a defined rule") s)
| bounds_text n mn mx : choice_of (Some n) = COk 1%Z -> says_number "min" n mn -> says_number "max" n mx -> 0 < mx -> mx < mn ->
    complaint E err known ms KQuant n (bs "quant: min (" ++ bs (dec mn) ++ bs ") > max (" ++ bs (dec mx) ++ bs ")")
| twice_text n a t b u c named more s x : labelled "grammar" n = [] -> one_op n = COk ""%string ->
    labelled "term" n = a ++ t :: b ++ u :: c -> ident_of t (sb x) -> labelled "named" u = named :: more -> token_at "IDENT" named s x -> x <> [] ->
    complaint E err known ms KTerm n (quoting "identifier '" x (bs "' is being used multiple times in a single term") s)
| arg_text n a m b s x : labelled "args" n = a ++ m :: b -> located_at m s x ->
    (In (sb x) known \/ exists m' s', In m' a /\ located_at m' s' x) ->
    complaint E err known ms KPragmaMacrodef n (quoting "macro arg '" x (bs "' clashes with a defined rule") s)
| call_text n s x : token_at "name" n s x -> (forall m, ~ ms (sb x) m) ->
    complaint E err known ms KMacrocall n (quoting "Attempting to call " x (bs " which is not a macro") s)
| count_text n x m : says_or_none "name" n x -> ms x m -> length (labelled "args" m) <> length (labelled "term" n) ->
    complaint E err known ms KMacrocall n
      (bs "Macro " ++ bs x ++ bs " expected " ++ bs (dec (length (labelled "args" m))) ++ bs " args, given " ++ bs (dec (length (labelled "term" n)))).

(** Names and tokens that can be printed: tokens are not empty, and the names that get into formats have no %. *)
Definition no_percent (x : string) : Prop := ~ In "%"%char (bs x).
Definition printable (n : anode) : Prop := forall k m, enters closed n k m ->
  (forall name s x, In name ["IDENT"; "RE"; "name"]%string -> token_at name m s x -> x <> []) /\
  (forall a s x, In a (labelled "args" m) -> located_at a s x -> x <> []) /\
  (forall x, says_or_none "name" m x -> no_percent x).

(** [redefined a xs ys]: [ys] are, in order, those of the names [xs] that were already among [a] or earlier in [xs]. *)
Inductive redefined : list string -> list string -> list string -> Prop :=
| redefined_nil a : redefined a [] []
| redefined_old a x xs ys : In x a -> redefined (x :: a) xs ys -> redefined a (x :: xs) (x :: ys)
| redefined_new a x xs ys : ~ In x a -> redefined (x :: a) xs ys -> redefined a (x :: xs) ys.
