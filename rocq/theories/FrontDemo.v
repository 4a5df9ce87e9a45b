(** Helpers for the examples about grammar texts. *)
From Verif Require Import Base Scanner Syntax Engine Resolve Compile Parse Regex PegSpec Demo WbnfGrammar Ast AstDemo WbnfAst Walker Build Recursion Validate Front.

Definition wbnf_front : parsers := Eval vm_compute in parsers_of wbnf_grammar.
(** Slices double, maps are iterated in the order of insertion. *)
Definition plain_runtime : runtime := mkRuntime doubling keys (fun _ l => l).
Fixpoint join_path (l : list string) : string :=
  match l with [] => "" | [x] => x | x :: l' => (x ++ "/" ++ join_path l')%string end.
Definition desk (files : list (string * string)) : world :=
  mkWorld regex_engine seqno plain_runtime join_path (fun p => p)
    (fun p => match lookup p files with Some s => Some (bs s) | None => None end) None.

(** The AST of a text, what validation says and the grammar that is built. *)
Definition front_ast (fuel : nat) (x : string) : cres (front_error + anode) := load_text (desk []) wbnf_front 9 fuel (bs x).
Definition front_grammar (fuel : nat) (x : string) : cres (front_error + grammar) := build_text (desk []) wbnf_front 9 fuel (bs x).
