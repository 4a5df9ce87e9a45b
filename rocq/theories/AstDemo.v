(** Helpers for the examples about ASTs. *)
From Verif Require Import Base Scanner Syntax Engine Resolve Compile Parse Regex PegSpec Demo Ast.

(** The tree that parsing the whole of [x] gives. *)
Definition tree_of (g : grammar) (r x : string) : option tree :=
  match parse_rule call 300 (parsers_of g) r (text x) with (ROk v, _) => Some v | _ => None end.
Definition ast_of (g : grammar) (r x : string) : option (cres (branch * grammar)) :=
  match tree_of g r x with Some v => Some (from_parser_node 300 g v) | None => None end.
(** There and back again. *)
Definition back_of (g : grammar) (r x : string) : option (cres (otree * grammar)) :=
  match ast_of g r x with Some (COk (b, g')) => Some (to_parser_node 300 g b) | _ => None end.

(** From the text to the AST, as callers do it: with the grammar of the compiled parsers. *)
Definition conversion (g : grammar) (r x : string) : option (cres (branch * grammar)) :=
  match parse_rule call 300 (parsers_of g) r (text x) with
  | (ROk v, _) => Some (from_parser_node 300 (p_grammar (parsers_of g)) v)
  | _ => None
  end.

(** An AST with the texts in place of the scanners. *)
Inductive sketch :=
| Txt (s : string)
| Dat (d : adata)
| Br (l : list (string * children sketch)).
Fixpoint sketch_of (n : anode) : sketch :=
  match n with
  | ABranch b => Br (map (fun kv : string * children anode =>
      (fst kv, match snd kv with One n => One (sketch_of n) | Many ns => Many (map sketch_of ns) end)) b)
  | ALeaf s => Txt (match sstring s with Some t => sb t | None => "?" end)
  | AExtra d => Dat d
  end.
Definition shown_ast (g : grammar) (r x : string) : option (cres sketch) :=
  match ast_of g r x with
  | Some (COk (b, _)) => Some (COk (sketch_of (ABranch b)))
  | Some CPanic => Some CPanic
  | _ => None
  end.
Definition lit (x : string) : term := TS (bs x).
