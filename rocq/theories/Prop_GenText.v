(** C87 and C88: the text of the generated types, read and checked as Go. *)
From Verif Require Import Base Scanner ScannerSpec Syntax Engine Resolve Compile Parse Regex Demo CutSpec ApiSpec ApiProofs StackSpec PegSpec DerivSpec CutPoints CutPointProofs
  WbnfGrammar Ast AstSpec AstParse AstFits AstDemo WbnfAst Walker Build Recursion Validate Front FrontSpec FrontProofs FrontDemo FrontCheck Prop_Refs Prop_Boot
  Types TypesSpec TypesTop TypesRun TypesOnce TypesWalk WbnfTypes Getters GenText GoText GoTextProofs GoTyping GenTextSpec GenTextProofs GenCompile ShippedText Prop_Types.
Local Open Scope string_scope.
Local Open Scope list_scope.

(** If the names can be spelled in Go, the text declares the types and methods of the model, and each method does what the model says, on every node. *)
Theorem C87_text : forall camel rand g tm, make_types camel rand g = COk tm -> names_fit camel tm = true ->
  exists gs, go_source (bs (types_text camel tm)) gs /\ declares (decls camel tm) gs.
Proof. intros camel rand g tm _ F. exact (types_text_ok camel tm F). Qed.
Print Assumptions C87_text.
(** A text says one thing only. *)
Theorem C87_once : forall b ds ds', go_source b ds -> go_source b ds' -> ds = ds'.
Proof. exact go_source_once. Qed.
Print Assumptions C87_once.

(** wbnf's own grammar. *)
Definition core_types : types := match make_types to_camel Z.of_nat core_grammar with COk tm => tm | _ => [] end.
Example C87_example : make_types to_camel Z.of_nat core_grammar = COk core_types /\ names_fit to_camel core_types = true /\ length core_types = 20.
Proof. vm_compute. repeat split. Qed.
(** For it the text says what the shipped source says; they differ in layout only. *)
Lemma core_reads : exists ds ps ps', go_tokens (bs (types_text to_camel core_types)) = Some ps /\ go_tokens (bs shipped_text) = Some ps' /\
  read_decls 300 ps = Some ds /\ read_decls 300 ps' = Some ds.
Proof.
  exists (match go_tokens (bs shipped_text) with Some ps => match read_decls 300 ps with Some ds => ds | None => [] end | None => [] end).
  exists (match go_tokens (bs (types_text to_camel core_types)) with Some ps => ps | None => [] end).
  exists (match go_tokens (bs shipped_text) with Some ps => ps | None => [] end).
  split; [vm_compute; reflexivity|]. split; [vm_compute; reflexivity|]. split; vm_compute; reflexivity.
Qed.
Lemma ok_same : forall camel rand g tm ds, make_types camel rand g = COk tm -> generated_types camel rand g = COk ds -> decls camel tm = ds.
Proof. intros camel rand g tm ds M G. unfold generated_types in G. rewrite M in G. cbn [cbind] in G. congruence. Qed.
Theorem C87_shipped : exists gs, go_source (bs (types_text to_camel core_types)) gs /\ go_source (bs shipped_text) gs /\ declares shipped_types gs.
Proof.
  destruct C87_example as (M & F & _). destruct (C87_text _ _ _ _ M F) as (gs & S & D).
  destruct core_reads as (ds & ps & ps' & T & T' & R & R').
  assert (E : gs = ds) by (apply (C87_once _ _ _ S); exists ps, 300; exact (conj T R)). subst ds.
  exists gs. split; [exact S|]. split; [exists ps', 300; exact (conj T' R')|].
  pose proof (ok_same _ _ _ _ _ M shipped_by_model) as G.
  rewrite <- G. exact D.
Qed.
Print Assumptions C87_shipped.

(** Not for all names: the type of a rule called _1 would start with a digit. *)
Theorem C87_digit_refuted : exists x g tm, accepts x g /\ make_types to_camel Z.of_nat g = COk tm /\ forall gs, ~ go_source (bs (types_text to_camel tm)) gs.
Proof.
  set (x := "_1 -> 'x';").
  assert (A : accepted_b (desk []) wbnf_front 9 300 (bs x) [("_1", 1)] = Some (built x)) by (vm_compute; reflexivity).
  exists x, (built x), (match make_types to_camel Z.of_nat (built x) with COk tm => tm | _ => [] end). split; [exact (accepted_b_ok _ _ _ _ _ _ _ A)|].
  split; [vm_compute; reflexivity|]. intros gs (ps & f & T & _). revert T. vm_compute. discriminate.
Qed.
Print Assumptions C87_digit_refuted.

(** C88: Go accepts the types that are written, exactly if the types of all results are declared and nothing is declared twice. *)
Theorem C88_exactly : forall camel rand g tm gs, make_types camel rand g = COk tm -> names_fit camel tm = true -> go_source (bs (types_text camel tm)) gs ->
  (compiles gs <->
   (forall T x m R, In (DMethod T x m) (decls camel tm) -> result_type m = Some R -> In (DType R) (decls camel tm)) /\ NoDup (map header (decls camel tm))).
Proof.
  intros camel rand g tm gs M F S. destruct (C87_text _ _ _ _ M F) as (gs' & S' & D). rewrite (C87_once _ _ _ S S'). exact (text_compiles_iff camel rand g tm gs' M D).
Qed.
Print Assumptions C88_exactly.
(** So for the grammars of C62 and C63, ... *)
Theorem C88_grammars : forall camel rand g tops tm, make_types camel rand g = COk tm -> names_fit camel tm = true -> settled_grammar g = true ->
  (forall r, In r tops -> In r (map fst g) /\ go_name camel (go_name camel r) = go_name camel r) -> forallb (fun kv => returned tops (snd kv)) g = true ->
  grammar_without "@" g = true -> forallb (fun kv => no_backs (snd kv)) g = true -> distinct_in_go (go_name camel) (grammar_labels g) ->
  exists gs, go_source (bs (types_text camel tm)) gs /\ compiles gs.
Proof.
  intros camel rand g tops tm M F S TP RT W B DI. destruct (C87_text _ _ _ _ M F) as (gs & SO & D). exists gs. split; [exact SO|].
  assert (G : generated_types camel rand g = COk (decls camel tm)) by (unfold generated_types; now rewrite M).
  apply (C88_exactly _ _ _ _ _ M F SO). split.
  - exact (C62_results_declared camel rand g tops _ S TP RT G).
  - exact (C63_declared_once camel rand g _ W B DI G).
Qed.
Print Assumptions C88_grammars.
Definition made (x : string) : types := match make_types to_camel Z.of_nat (built x) with COk tm => tm | _ => [] end.
Example C88_example : let g := built call_text in
  make_types to_camel Z.of_nat g = COk (made call_text) /\ names_fit to_camel (made call_text) = true /\ settled_grammar g = true /\
  (forall r, In r ["name"] -> In r (map fst g) /\ go_name to_camel (go_name to_camel r) = go_name to_camel r) /\ forallb (fun kv => returned ["name"] (snd kv)) g = true /\
  grammar_without "@" g = true /\ forallb (fun kv => no_backs (snd kv)) g = true /\ distinct_in_go (go_name to_camel) (grammar_labels g) /\ length (decls to_camel (made call_text)) = 7.
Proof.
  destruct C63_example as ((A & B & C & _) & _). split; [vm_compute; reflexivity|]. split; [vm_compute; reflexivity|]. split; [vm_compute; reflexivity|].
  split; [|split; [vm_compute; reflexivity|split; [exact A|split; [exact B|split; [exact C|vm_compute; reflexivity]]]]].
  intros r [<-|[]]. split; [vm_compute; tauto|vm_compute; reflexivity].
Qed.
(** ... and for the source that is shipped. *)
Lemma compiles_by : forall camel rand g tops tm ds gs, make_types camel rand g = COk tm -> names_fit camel tm = true -> go_source (bs (types_text camel tm)) gs ->
  generated_types camel rand g = COk ds -> NoDup (map header ds) -> settled_grammar g = true ->
  (forall r, In r tops -> In r (map fst g) /\ go_name camel (go_name camel r) = go_name camel r) -> forallb (fun kv => returned tops (snd kv)) g = true -> compiles gs.
Proof.
  intros camel rand g tops tm ds gs M F S G N A B C. apply (C88_exactly _ _ _ _ _ M F S). rewrite (ok_same _ _ _ _ _ M G). split; [|exact N].
  exact (C62_results_declared camel rand g tops ds A B C G).
Qed.
Theorem C88_shipped : exists gs, go_source (bs shipped_text) gs /\ compiles gs.
Proof.
  destruct C87_example as (M & F & _). destruct C87_shipped as (gs & S & S' & _). exists gs. split; [exact S'|].
  destruct C62_example as (A & B & C). destruct C63_example as (_ & N).
  exact (compiles_by to_camel Z.of_nat core_grammar ["IDENT"; "STR"; "INT"; "term"] core_types shipped_types gs M F S shipped_by_model N A B C).
Qed.
Print Assumptions C88_shipped.
(** Not for every accepted grammar: the type of a result may be missing, ... *)
Definition not_compiling (x : string) : Prop := exists g tm, accepts x g /\ make_types to_camel Z.of_nat g = COk tm /\ exists gs, go_source (bs (types_text to_camel tm)) gs /\ ~ compiles gs.
Theorem C88_missing_refuted : not_compiling "a -> x=b_c; b_c -> '1';".
Proof.
  set (x := "a -> x=b_c; b_c -> '1';").
  assert (A : accepted_b (desk []) wbnf_front 9 300 (bs x) [("a", 1)] = Some (built x)) by (vm_compute; reflexivity).
  assert (M : make_types to_camel Z.of_nat (built x) = COk (made x)) by (vm_compute; reflexivity).
  assert (F : names_fit to_camel (made x) = true) by (vm_compute; reflexivity).
  exists (built x), (made x). split; [exact (accepted_b_ok _ _ _ _ _ _ _ A)|]. split; [exact M|].
  destruct (C87_text _ _ _ _ M F) as (gs & S & _). exists gs. split; [exact S|]. intros C. destruct (proj1 (C88_exactly _ _ _ _ _ M F S) C) as [R _].
  assert (I : In (DMethod "ANode" "OneX" (MOne "x" (Some "BCNode"))) (decls to_camel (made x))) by (vm_compute; tauto).
  assert (L : lacks (decls to_camel (made x)) "BCNode" = true) by (vm_compute; reflexivity).
  exact (lacks_ok _ _ L (R "ANode" "OneX" (MOne "x" (Some "BCNode")) "BCNode" I eq_refl)).
Qed.
Print Assumptions C88_missing_refuted.
(** ... or a method be there twice. *)
Theorem C88_twice_refuted : not_compiling "a -> 'x' token; token -> 'y';".
Proof.
  set (x := "a -> 'x' token; token -> 'y';").
  assert (A : accepted_b (desk []) wbnf_front 9 300 (bs x) [("a", 1)] = Some (built x)) by (vm_compute; reflexivity).
  assert (M : make_types to_camel Z.of_nat (built x) = COk (made x)) by (vm_compute; reflexivity).
  assert (F : names_fit to_camel (made x) = true) by (vm_compute; reflexivity).
  exists (built x), (made x). split; [exact (accepted_b_ok _ _ _ _ _ _ _ A)|]. split; [exact M|].
  destruct (C87_text _ _ _ _ M F) as (gs & S & _). exists gs. split; [exact S|]. intros C. destruct (proj1 (C88_exactly _ _ _ _ _ M F S) C) as [_ N].
  assert (L : once_b (decls to_camel (made x)) = false) by (vm_compute; reflexivity).
  pose proof (proj2 (once_b_ok _) N) as N'. rewrite L in N'. discriminate N'.
Qed.
Print Assumptions C88_twice_refuted.
