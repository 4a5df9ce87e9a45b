(** Model of cmd/codegen/idents.go.  Its use in cmd/gen.go:67 is commented out. *)
From Verif Require Import Base Scanner Syntax Resolve Ast WbnfAst Walker GoText GenText.
Local Open Scope string_scope.
Local Open Scope list_scope.

(** idents.go:15-17 [IdentName]. *)
Definition ident_name (x : string) : string := String dquote (x ++ String dquote "")%string.
(** frozen.Set [With], a set as the list of its elements. *)
Definition with_name (x : string) (st : list string) : list string := if existsb (String.eqb x) st then st else st ++ [x].
(** idents.go:22-34: the callbacks.  [OneIdent] may be nil, and gives the empty string then. *)
Definition idents_enter (k : kind) (n : anode) (st : list string) : cres (option stopper * list string) :=
  match k with
  | KNamed => cbind (string_of (one "IDENT" n)) (fun x => COk (None, if String.eqb x "@" then st else with_name x st))
  | KProd => cbind (string_of (one "IDENT" n)) (fun x => COk (None, with_name x st))
  | _ => COk (None, st)
  end.
Definition idents_exit (k : kind) (n : anode) (st : list string) : cres (option stopper * list string) := COk (None, st).
(** idents.go:36-38: [OrderedElements]; no two elements compare as equal, so that the order of the set does not matter. *)
Fixpoint insert_name (x : string) (l : list string) : list string :=
  match l with
  | [] => [x]
  | y :: l' => match String.compare (ident_name x) (ident_name y) with Gt => y :: insert_name x l' | _ => x :: l end
  end.
Definition sort_names (l : list string) : list string := fold_right insert_name [] l.
(** idents.go:39-45. *)
Definition ident_line (x : string) : string := (ident_name x ++ " = " ++ ident_name x ++ newline)%string.
Definition idents_text (l : list string) : string :=
  ("const (" ++ newline ++ fold_right (fun x s => (if String.eqb x "" then "" else ident_line x) ++ s) "" l ++ ")" ++ newline)%string.
(** idents.go:19-46 [IdentsWriter.String]; [CDiv] is out of fuel of the walk. *)
Definition idents (fuel : nat) (n : anode) : cres string :=
  cbind (walk idents_enter idents_exit fuel KGrammar n []) (fun '(_, names) => COk (idents_text (sort_names names))).
