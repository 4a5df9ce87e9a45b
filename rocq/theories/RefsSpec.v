(** References and definitions in a grammar text, seen on its AST. *)
From Verif Require Import Base Scanner Syntax Resolve Ast WbnfAst.

(** A node somewhere in an AST. *)
Inductive below : anode -> anode -> Prop :=
| below_refl n : below n n
| below_one b name c m : In (name, One c) b -> below c m -> below (ABranch b) m
| below_many b name cs c m : In (name, Many cs) b -> In c cs -> below c m -> below (ABranch b) m.

(** A text without nested grammars and macro definitions. *)
Definition plain_tree (n : anode) : Prop :=
  forall b, below n (ABranch b) -> lookup "grammar"%string b = None /\ lookup "macrodef"%string b = None.

(** The productions of a grammar, in order. *)
Definition productions (n : anode) : list anode :=
  flat_map (fun s => match one "prod" s with Some p => [p] | None => [] end) (all "stmt" n).
(** [p] is a production of the grammar with the name [x]. *)
Definition defines (n : anode) (x : string) (p : anode) : Prop :=
  exists stmt, In stmt (all "stmt" n) /\ one "prod" stmt = Some p /\ string_of (one "IDENT" p) = COk x.
