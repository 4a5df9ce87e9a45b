(** Property C91: the constants for the names of a grammar. *)
From Verif Require Import Base Scanner Syntax Engine Resolve Ast WbnfAst Walker WalkerSpec WalkerProofs Front FrontDemo GoText Idents IdentsSpec IdentsProofs.
Local Open Scope string_scope.
Local Open Scope list_scope.

(** The text has one line for each name that is given in the grammar, in order ... *)
Theorem C91_names : forall fuel n text, height n < fuel -> idents fuel n = COk text ->
  exists names body, text = ("const (" ++ line_break ++ body ++ ")" ++ line_break)%string /\ spells names body /\ rising names /\
    forall x, In x names <-> x <> "" /\ given n x.
Proof. exact idents_list. Qed.
Print Assumptions C91_names.
Definition plain_source : string := "b -> x='y' a? d=(e='u' | 'v'); a -> 'z':x=',';".
Definition plain_ast : anode := Eval vm_compute in match front_ast 300 plain_source with COk (inr n) => n | _ => ABranch [] end.
Example C91_example : front_ast 300 plain_source = COk (inr plain_ast) /\ height plain_ast < 300 /\
  idents 300 plain_ast = COk (let q := String dquote "" in let line x := (q ++ x ++ q ++ " = " ++ q ++ x ++ q ++ line_break)%string in
    "const (" ++ line_break ++ line "a" ++ line "b" ++ line "d" ++ line "e" ++ line "x" ++ ")" ++ line_break)%string.
Proof. split; [vm_compute; reflexivity|]. split; [apply Nat.ltb_lt; vm_compute; reflexivity|]. vm_compute. reflexivity. Qed.

(** ... but it is never a group of constants in Go unless it is empty, since the names are in quotes. *)
Theorem C91_never_constants : forall fuel n text l x, height n < fuel -> idents fuel n = COk text -> x <> "" -> given n x -> ~ const_group (bs text) l.
Proof.
  intros fuel n text l x H R NE G C. destruct (idents_list _ _ _ H R) as (names & body & -> & SP & _ & I).
  rewrite (never_constants _ _ _ SP C) in I. exact (proj2 (I x) (conj NE G)).
Qed.
Print Assumptions C91_never_constants.
Theorem C91_constants_refuted : exists text, idents 300 plain_ast = COk text /\ forall l, ~ const_group (bs text) l.
Proof.
  destruct C91_example as (_ & H & E). eexists. split; [exact E|]. intros l C. pose proof (idents_list _ _ _ H E) as (names & body & T & SP & _ & I).
  rewrite T in C. pose proof (never_constants _ _ _ SP C). subst names. inversion SP; subst body. discriminate T.
Qed.
Print Assumptions C91_constants_refuted.
(** Such groups exist: the empty one, and those with names that are not in quotes. *)
Example C91_groups : const_group (bs (idents_text [])) [] /\ const_group (bs ("const (" ++ line_break ++ "a = " ++ ident_name "a" ++ line_break ++ ")" ++ line_break)%string) [(bs "a", bs "a")].
Proof.
  split; (eexists; split; [vm_compute; reflexivity|]); repeat constructor.
Qed.
