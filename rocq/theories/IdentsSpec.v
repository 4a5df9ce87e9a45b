(** What the list of the names of a grammar should hold, and what a group of constants is in Go. *)
From Verif Require Import Base Scanner Syntax Resolve Ast WbnfAst Walker WalkerSpec GoText.
Local Open Scope string_scope.
Local Open Scope list_scope.

(** The name that a rule or a term has in the source. *)
Definition called (m : anode) (x : string) : Prop := string_of (one "IDENT" m) = COk x.
(** The names given in a grammar: those of its rules, and those of its named terms except @. *)
Definition given (n : anode) (x : string) : Prop := exists evs, tour (fun _ _ => false) KGrammar n evs /\
  ((exists m, In (Enter KProd m) evs /\ called m x) \/ (x <> "@" /\ exists m, In (Enter KNamed m) evs /\ called m x)).
(** In the order of the names in quotes. *)
Definition in_quotes (x : string) : string := String dquote (x ++ String dquote "")%string.
Inductive rising : list string -> Prop :=
| rising_nil : rising []
| rising_cons x l : Forall (fun y => String.compare (in_quotes x) (in_quotes y) = Lt) l -> rising l -> rising (x :: l).
(** One line for each of the names. *)
Definition line_break : string := String nl "".
Inductive spells : list string -> string -> Prop :=
| spells_nil : spells [] ""
| spells_cons x l s : spells l s -> spells (x :: l) (in_quotes x ++ " = " ++ in_quotes x ++ line_break ++ s)%string.

(** A group of constants in Go: [const ( name = string; ... )]. *)
Inductive constants : list piece -> list (bytes * bytes) -> Prop :=
| constants_end : constants [Mark RPar; Mark Semi] []
| constants_one x v ps l : constants ps l -> constants (Name x :: Mark Becomes :: Quoted v :: Mark Semi :: ps) ((x, v) :: l).
Definition const_group (b : bytes) (l : list (bytes * bytes)) : Prop :=
  exists ps, go_tokens b = Some (Name (bs "const") :: Mark LPar :: ps) /\ constants ps l.
