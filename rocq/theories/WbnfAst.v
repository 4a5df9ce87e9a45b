(** Model of ast/helpers.go and of the typed view of a grammar's AST generated into
    wbnf/wbnfgrammar.go.  A node that may be nil is an [option].  The generated node types are
    structs around an [ast.Node]; here a typed node is the bare AST node.  [OneToken] and [AllToken]
    are modelled only for the import path, their only use in /repo. *)
From Verif Require Import Base Scanner Syntax Resolve Ast.

(** node.go:57-109 [One], [Many]: leaves and extras have no children. *)
Definition node_one (n : anode) (name : string) : option anode :=
  match n with ABranch b => get_one b name | _ => None end.
Definition node_many (n : anode) (name : string) : list anode :=
  match n with ABranch b => get_many b name | _ => [] end.

(** helpers.go:32-44 [First]. *)
Definition first_of (n : option anode) (name : string) : option anode :=
  match n with
  | None => None
  | Some n =>
      match node_one n name with
      | Some m => Some m
      | None => match node_many n name with m :: _ => Some m | [] => None end
      end
  end.
(** helpers.go:46-58 [All]. *)
Definition all_of (n : option anode) (name : string) : list anode :=
  match n with
  | None => []
  | Some n => match node_one n name with Some m => [m] | None => node_many n name end
  end.
(** helpers.go:7-18 [Which]: the name only; the list of names is never empty. *)
Fixpoint which (b : branch) (names : list string) : string :=
  match names with
  | [] => ""
  | name :: names' => if has name b then name else which b names'
  end.
(** helpers.go:20-30 [Choice]; the type assertions may panic. *)
Definition choice_of (n : option anode) : cres Z :=
  match n with
  | None => COk (-1)%Z
  | Some _ => match first_of n "@choice" with
              | None => COk (-1)%Z
              | Some (AExtra (DChoice c)) => COk (Z.of_nat c)
              | Some _ => CPanic
              end
  end.

(** [Scanner().String()] of a node. *)
Definition node_text (n : anode) : cres bytes :=
  match node_scanner n with
  | Some s => match sstring s with Some b => COk b | None => CPanic end
  | None => CPanic
  end.
(** wbnfgrammar.go:252-257 and the like: [String] of IdentNode, IntNode, ReNode, StrNode; a nil
    node gives the empty string. *)
Definition string_of (n : option anode) : cres string :=
  match n with None => COk ""%string | Some n => cbind (node_text n) (fun b => COk (sb b)) end.

(** wbnfgrammar.go:132-696 [One...] and [All...]: [one name n] is [First(n, name)]. *)
Definition one (name : string) (n : anode) : option anode := first_of (Some n) name.
Definition all (name : string) (n : anode) : list anode := all_of (Some n) name.
(** wbnfgrammar.go:336-341, 520-539, 651-656 [OneOp], [OneOptLeading], [OneOptTrailing]:
    the token inside a child, which must exist. *)
Definition one_token_of (name : string) (n : anode) : cres string :=
  match one name n with
  | None => COk ""%string
  | Some child => match first_of (Some child) "" with
                  | Some t => cbind (node_text t) (fun b => COk (sb b))
                  | None => CPanic
                  end
  end.
Definition one_op : anode -> cres string := one_token_of "op".
(** wbnfgrammar.go:373-379 [PragmaImportPathNode.AllToken]. *)
Definition all_tokens (n : anode) : cres (list string) :=
  fold_right (fun child acc => cbind (node_text child) (fun b => cbind acc (fun l => COk (sb b :: l)))) (COk []) (all "" n).
