(** Model of the methods that wbnf gen writes for its types, run on the node of the type.  Go's
    [string] is a byte string here; [nil] is [None]. *)
From Verif Require Import Base Scanner Syntax Resolve Ast WbnfAst Types.
Local Open Scope string_scope.

(** What the methods return. *)
Inductive answer :=
| AText (s : bytes)
| ATexts (l : list bytes)
| ANode (n : option anode)
| ANodes (l : list anode)
| ANumber (z : Z).

(** [x.Scanner().String()], where [x] may be nil. *)
Definition text_of (n : option anode) : cres bytes :=
  match n with Some n => node_text n | None => CPanic end.
(** A loop that appends a text for each node. *)
Fixpoint texts_of (f : anode -> cres bytes) (l : list anode) : cres (list bytes) :=
  match l with
  | [] => COk []
  | n :: l' => cbind (f n) (fun t => cbind (texts_of f l') (fun ts => COk (t :: ts)))
  end.
(** types.go:265-281 [OneToken]: in a branch of one entry, the token of the child, which has to be One. *)
Definition one_token (n : anode) : cres bytes :=
  match first_of (Some n) "" with
  | Some child => node_text child
  | None =>
      match n with
      | ABranch [(_, One m)] => match first_of (Some m) "" with Some child => node_text child | None => COk [] end
      | ABranch [(_, Many _)] => CPanic
      | _ => COk []
      end
  end.
(** types.go:227-236: the text of the first token with a name. *)
Definition one_named (x : string) (n : anode) : cres bytes :=
  match first_of (Some n) x with Some child => text_of (first_of (Some child) "") | None => COk [] end.

(** types.go:150-159, 186, 211-215, 221-328: the bodies of the methods.  The nodes of the other types that getters return
    are structs around an AST node, here the bare nodes. *)
Definition answers (m : method) (n : anode) : cres answer :=
  match m with
  | MString => cbind (node_text n) (fun t => COk (AText t))
  | MChoice => cbind (choice_of (Some n)) (fun z => COk (ANumber z))
  | MOne x None => cbind (if String.eqb x "" then one_token n else one_named x n) (fun t => COk (AText t))
  | MAll x None =>
      cbind (texts_of (fun c => if String.eqb x "" then node_text c else text_of (first_of (Some c) "")) (all_of (Some n) x))
            (fun l => COk (ATexts l))
  | MOne x (Some _) | MRef x => COk (ANode (first_of (Some n) x))
  | MAll x (Some _) => COk (ANodes (all_of (Some n) x))
  end.
