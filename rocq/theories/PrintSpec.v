(** Grammars whose printed form can be read back. *)
From Verif Require Import Base Scanner Syntax Engine StrLit NumSpec LayoutSpec.
Local Open Scope string_scope.
Local Open Scope list_scope.

(** Bounds that are printed: {1,1} is not, and the others have to be ints. *)
Definition fair_bounds (mn mx : nat) : Prop := is_int mn /\ is_int mx /\ (mn = 1 -> mx <> 1).

Section Plain.
  (** What fmt makes of a string for "%q", and the strings that can be read back. *)
  Variable quote : bytes -> bytes.
  Definition undone (s : bytes) : Prop := string_token (quote s) /\ parse_string (quote s) = Some s.
  Definition a_name (x : string) : Prop := name_token (bs x).

  (** Terms by how tightly their printed forms hold together: 0 stacks, 1 choices, 2 repetitions and lists, 3 names, 4 the rest.
      No regular expressions, externals, references without default, cut points and nested grammars; choices only at the top and below
      look-aheads; one repetition or list at a time; sequences of none or more than one term. *)
  Inductive plain : nat -> term -> Prop :=
  | pl_stack : forall t1 t2 ts, Forall (plain 1) (t1 :: t2 :: ts) -> plain 0 (TStack (t1 :: t2 :: ts))
  | pl_choice : forall t1 t2 ts, Forall (plain 2) (t1 :: t2 :: ts) -> plain 1 (TOneof (t1 :: t2 :: ts))
  | pl_quant : forall t mn mx, plain 3 t -> fair_bounds mn mx -> plain 2 (TQuant t mn mx)
  | pl_list : forall t sep a l r, plain 3 t -> plain 3 sep -> plain 2 (TDelim t sep a l r)
  | pl_named : forall n t, a_name n -> plain 4 t -> plain 3 (TNamed n t)
  | pl_rule : forall x, a_name x -> plain 4 (TRule x)
  | pl_string : forall s, undone s -> plain 4 (TS s)
  | pl_ref : forall i s, a_name i -> undone s -> plain 4 (TREF i (Some s))
  | pl_none : plain 4 (TSeq [])
  | pl_seq : forall t1 t2 ts, Forall (plain 2) (t1 :: t2 :: ts) -> plain 4 (TSeq (t1 :: t2 :: ts))
  | pl_look : forall t, plain 0 t -> plain 4 (TLookAhead t)
  | pl_next : forall n t, plain (S n) t -> (n < 4)%nat -> plain n t.
  (** More than one rule. *)
  Definition plain_grammar (g : grammar) : Prop :=
    (1 < length g)%nat /\ NoDup (keys g) /\ Forall (fun kv : string * term => a_name (fst kv) /\ plain 0 (snd kv)) g.
End Plain.

(** Characters that are quoted in a way the grammar language knows: no control characters but those with a letter of their own. *)
Definition tidy_char (c : ascii) : bool := (Nat.leb 7 (nat_of_ascii c) && Nat.leb (nat_of_ascii c) 13 || Nat.leb 32 (nat_of_ascii c) && Nat.leb (nat_of_ascii c) 126)%bool.
