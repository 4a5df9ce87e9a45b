(** Property C57: cut points in the layers of precedence stacks. *)
From Verif Require Import Base Scanner Syntax Engine Resolve Compile Parse Regex PegSpec StackSpec CutSpec ApiSpec Demo ChainProofs StackCut.

(** C57: the cut points in the layers of a stack do nothing: the grammar compiles to parsers with the same results without them ... *)
Theorem C57_layers_uncut : forall E g ps, same_map g g -> compile E g = COk ps ->
  exists ps', compile E (uncut_layers g) = COk ps' /\ forall c f r s, parse_rule c f ps r s = parse_rule c f ps' r s.
Proof. exact compile_uncut. Qed.
Print Assumptions C57_layers_uncut.

(** ... although the chain of rules that the stack stands for commits at them. *)
Definition cut_layers : grammar :=
  [("e", TStack [TQuant (TRule "@") 1 0; TOneof [TSeq [TCut (TS (bs "a")); TS (bs "b")]; TSeq [TS (bs "a"); TS (bs "c")]]])]%string.
Definition cut_rules : grammar :=
  [("e", TQuant (TRule "f") 1 0); ("f", TOneof [TSeq [TCut (TS (bs "a")); TS (bs "b")]; TSeq [TS (bs "a"); TS (bs "c")]])]%string.
(** Expected is that a stack gives the same strings as the rules that it stands for. *)
Theorem C57_commits_refuted : exists g g' x,
  g = [("e", TStack [TQuant (TRule "@") 1 0; TOneof [TSeq [TCut (TS (bs "a")); TS (bs "b")]; TSeq [TS (bs "a"); TS (bs "c")]]])]%string /\
  g' = [("e", TQuant (TRule "f") 1 0); ("f", TOneof [TSeq [TCut (TS (bs "a")); TS (bs "b")]; TSeq [TS (bs "a"); TS (bs "c")]])]%string /\
  leaf_strings (parse_rule call 40 (parsers_of g) "e" (text x)) = Some ["a"; "c"]%string /\
  exists e, fst (parse_rule call 40 (parsers_of g') "e" (text x)) = RErr e.
Proof.
  exists cut_layers, cut_rules, "ac"%string. split; [reflexivity|]. split; [reflexivity|]. split; [vm_compute; reflexivity|].
  assert (B : match fst (parse_rule call 40 (parsers_of cut_rules) "e" (text "ac")) with RErr _ => True | _ => False end) by (vm_compute; exact I).
  destruct (fst (parse_rule call 40 (parsers_of cut_rules) "e" (text "ac"))) as [v|e| |]; try contradiction. eauto.
Qed.
Print Assumptions C57_commits_refuted.
Example C57_example : same_map cut_layers cut_layers /\ compile regex_engine cut_layers = COk (parsers_of cut_layers) /\ uncut_layers cut_layers <> cut_layers.
Proof. split; [apply tidy_grammar_b_ok; reflexivity|]. split; [vm_compute; reflexivity|discriminate]. Qed.
