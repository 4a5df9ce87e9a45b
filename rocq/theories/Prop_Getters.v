(** Properties C65 to C67: the AST of a parse tree, and what generated getters give on it. *)
From Verif Require Import Base Scanner ScannerSpec Syntax Engine Resolve Compile Parse Regex Demo FlowSpec CutSpec ApiSpec ApiProofs StackSpec PegSpec DerivSpec CutPoints CutPointProofs
  WbnfGrammar Ast AstSpec AstParse AstFits AstDemo WbnfAst Walker Build Recursion Validate Front FrontSpec FrontProofs FrontDemo FrontCheck Prop_Refs Prop_Boot
  Types TypesSpec WbnfTypes Prop_Types PartsSpec PartsProofs Getters GettersSpec GettersProofs ScannerSpec.
Local Open Scope string_scope.

(** C65: the AST of what was parsed holds the parts of the tree, each once, under its name and in order, and nothing else but
    the name of the rule; ... *)
Theorem C65_parsed : forall c, cf_esc c = None -> forall g ps, compile (cf_eng c) g = COk ps ->
  readable (p_grammar ps) -> smooth_grammar (p_grammar ps) -> coherent (p_grammar ps) ->
  forall r t, r <> WrapRE -> r <> "" -> lookup r (p_grammar ps) = Some t -> own_tag t = true ->
  forall f s v s', drawn_ok (cf_rnd c) (draws c f ps r s) -> result (parse_rule c f ps r s) v s' ->
  forall n b g', from_parser_node n (p_grammar ps) v = COk (b, g') ->
  exists l, level [p_grammar ps] t v l /\
    match v with Leaf _ => made_of l b | _ => made_of (("@rule", AExtra (DRule r)) :: l) b end.
Proof. exact parsed_parts. Qed.
Print Assumptions C65_parsed.

(** ... this goes for every tree of a rule; ... *)
Theorem C65_trees : forall g r t x cs ks, smooth_grammar g -> coherent g -> r <> WrapRE -> lookup r g = Some t ->
  fits [g] t (Node r x cs) ks -> forall f b g', from_parser_node f g (Node r x cs) = COk (b, g') ->
  exists l, level [g] t (Node r x cs) l /\ made_of (("@rule", AExtra (DRule r)) :: l) b.
Proof. exact ast_parts. Qed.
Print Assumptions C65_trees.

(** ... and there is only one such AST, but for the order of entries and for single children. *)
Theorem C65_only_one : forall gs t v l l', level gs t v l -> level gs t v l' ->
  forall b b', made_of l b -> made_of l' b' -> alike (ABranch b) (ABranch b').
Proof. exact parts_unique. Qed.
Print Assumptions C65_only_one.

Definition let_text : string := "let -> 'LET' bind:',' 'IN' body=(num | name); bind -> name '=' val=/{[0-9]}; name -> /{[a-z]}; num -> /{[0-9]};".
Example C65_example :
  let g := built let_text in
  compile regex_engine g = COk (parsers_of g) /\ p_grammar (parsers_of g) = g /\ readable g /\ smooth_grammar g /\ coherent g /\
  match lookup "let" g with Some t => own_tag t = true | None => False end /\
  match conversion g "let" "LETx=1,y=2INx" with
  | Some (COk (b, _)) => map fst b = ["@rule"; ""; "bind"; "body"] /\ length (children_at "bind" b) = 2%nat
  | _ => False
  end.
Proof.
  split; [vm_compute; reflexivity|]. split; [vm_compute; reflexivity|]. split; [split; vm_compute; reflexivity|].
  split; [apply smooth_grammar_b_ok; vm_compute; reflexivity|]. split; [apply coherent_b_ok; vm_compute; reflexivity|].
  split; [vm_compute; reflexivity|]. vm_compute. auto.
Qed.

(** C66: the getters of a type for nodes give the parts of the name, ... *)
Theorem C66_nodes : forall l b, made_of l b -> forall x R,
  answers (MAll x (Some R)) (ABranch b) = COk (ANodes (named x l)) /\
  answers (MOne x (Some R)) (ABranch b) = COk (ANode (hd_error (named x l))) /\
  answers (MRef x) (ABranch b) = COk (ANode (hd_error (named x l))).
Proof. exact nodes_given. Qed.
Print Assumptions C66_nodes.

(** ... those for texts give the texts of the tokens of the name, if only tokens have it: on all parts of trees, ... *)
Theorem C66_texts : forall gs t v l, level gs t v l -> (forall s, In s (leaves v) -> exists txt, shows s txt) ->
  forall e b, made_of (e ++ l) b -> (forall k n, In (k, n) e -> prefix "@" k = true) ->
  forall x, tokens_only x t = true -> prefix "@" x = false ->
  exists ss ts, Forall2 (spells x) (named x l) ss /\ incl ss (leaves v) /\ Forall2 shows ss ts /\
    answers (MAll x None) (ABranch b) = COk (ATexts ts) /\
    (x <> "" \/ ts <> [] -> answers (MOne x None) (ABranch b) = COk (AText (hd [] ts))).
Proof. exact texts_given. Qed.
Print Assumptions C66_texts.

(** ... and on the AST of what was parsed. *)
Theorem C66_parsed_texts : forall c, cf_esc c = None -> forall g ps, compile (cf_eng c) g = COk ps -> readable g -> smooth_grammar g -> coherent g ->
  forall r t, r <> WrapRE -> r <> "" -> lookup r g = Some t -> own_tag t = true ->
  forall f s v s', engine_ok (cf_eng c) -> in_range s -> patterns_grammar (participates (cf_eng c)) g -> no_look_grammar g = true ->
  drawn_ok (cf_rnd c) (draws c f ps r s) -> result (parse_rule c f ps r s) v s' ->
  forall n b g', from_parser_node n g v = COk (b, g') -> forall x, tokens_only x t = true -> prefix "@" x = false ->
  exists l ss ts, level [g] t v l /\ Forall2 (spells x) (named x l) ss /\ incl ss (leaves v) /\ Forall2 shows ss ts /\
    answers (MAll x None) (ABranch b) = COk (ATexts ts) /\
    (x <> "" \/ ts <> [] -> answers (MOne x None) (ABranch b) = COk (AText (hd [] ts))).
Proof. exact parsed_texts. Qed.
Print Assumptions C66_parsed_texts.

(** The node of a rule that is one token has its text, and Choice is the first choice made. *)
Theorem C66_string : forall s txt, shows s txt -> forall e b, made_of (e ++ [("", ALeaf s)]) b ->
  (forall k n, In (k, n) e -> prefix "@" k = true) -> answers MString (ABranch b) = COk (AText txt).
Proof. exact token_given. Qed.
Print Assumptions C66_string.
Theorem C66_choice : forall gs t v l, level gs t v l -> smooth t -> forall e b, made_of (e ++ l) b -> (forall k n, In (k, n) e -> k <> "@choice") ->
  exists is, named "@choice" l = map (fun i => AExtra (DChoice i)) is /\
    answers MChoice (ABranch b) = COk (ANumber (match is with i :: _ => Z.of_nat i | [] => (-1)%Z end)).
Proof. exact choice_given. Qed.
Print Assumptions C66_choice.

Definition method_of (ds : list decl) (T name : string) : option method :=
  match find (fun d => match d with DMethod T' n _ => String.eqb T T' && String.eqb name n | _ => false end%bool) ds with
  | Some (DMethod _ _ m) => Some m
  | _ => None
  end.
Definition ask (ds : list decl) (T name : string) (n : anode) : option (cres answer) := option_map (fun m => answers m n) (method_of ds T name).
Example C66_example :
  let g := built let_text in
  let ds := types_of let_text in
  match lookup "let" g, lookup "bind" g with
  | Some t, Some u => tokens_only "" t = true /\ tokens_only "val" u = true /\ references_only "bind" t = true
  | _, _ => False
  end /\
  match conversion g "let" "LETx=1,y=2INx" with
  | Some (COk (b, _)) =>
      match ask ds "LetNode" "OneToken" (ABranch b), ask ds "LetNode" "AllBind" (ABranch b) with
      | Some (COk (AText t)), Some (COk (ANodes [x; y])) =>
          sb t = "LET" /\ ask ds "BindNode" "OneVal" y = Some (COk (AText (bs "2"))) /\
          match ask ds "BindNode" "OneName" y with
          | Some (COk (ANode (Some n))) => ask ds "NameNode" "String" n = Some (COk (AText (bs "y")))
          | _ => False
          end
      | _, _ => False
      end
  | _ => False
  end.
Proof. vm_compute. auto 10. Qed.

(** OneToken looks into the only child when there is no token, and so it gives the text of another rule, ... *)
Definition child_of (g : grammar) (r y k : string) : option anode :=
  match conversion g r y with Some (COk (b, _)) => first_of (Some (ABranch b)) k | _ => None end.
Ltac accepted x rank :=
  let A := fresh in
  assert (A : accepted_b (desk []) wbnf_front 9 300 (bs x) rank = Some (built x)) by (vm_compute; reflexivity);
  split; [exact (accepted_b_ok _ _ _ _ _ _ _ A)|]; split; [vm_compute; reflexivity|].
Theorem C66_one_token_refuted : exists g ds n,
  let x := "r -> a; a -> 'x'? b; b -> 'y';" in
  accepts x g /\ generated_types to_camel Z.of_nat g = COk ds /\ child_of g "r" "y" "a" = Some n /\
  all_of (Some n) "" = [] /\ ask ds "ANode" "OneToken" n = Some (COk (AText (bs "y"))).
Proof.
  exists (built "r -> a; a -> 'x'? b; b -> 'y';"), (types_of "r -> a; a -> 'x'? b; b -> 'y';"). eexists.
  accepted "r -> a; a -> 'x'? b; b -> 'y';" [("r", 2); ("a", 1)].
  split; [vm_compute; reflexivity|]. split; vm_compute; reflexivity.
Qed.
Print Assumptions C66_one_token_refuted.
(** ... or panics when that is a list. *)
Theorem C66_one_token_panics_refuted : exists g ds n,
  let x := "r -> a; a -> 'x'? b*; b -> 'y';" in
  accepts x g /\ generated_types to_camel Z.of_nat g = COk ds /\ child_of g "r" "yy" "a" = Some n /\
  ask ds "ANode" "OneToken" n = Some CPanic.
Proof.
  exists (built "r -> a; a -> 'x'? b*; b -> 'y';"), (types_of "r -> a; a -> 'x'? b*; b -> 'y';"). eexists.
  accepted "r -> a; a -> 'x'? b*; b -> 'y';" [("r", 2); ("a", 1)].
  split; vm_compute; reflexivity.
Qed.
Print Assumptions C66_one_token_panics_refuted.
(** With a name for both tokens and rules the getters panic. *)
Theorem C66_mixed_refuted : exists g ds b g',
  let x := "a -> x='1' | x=b; b -> 'z' '!';" in
  accepts x g /\ generated_types to_camel Z.of_nat g = COk ds /\ conversion g "a" "z!" = Some (COk (b, g')) /\
  ask ds "ANode" "OneX" (ABranch b) = Some CPanic.
Proof.
  exists (built "a -> x='1' | x=b; b -> 'z' '!';"), (types_of "a -> x='1' | x=b; b -> 'z' '!';"). eexists. eexists.
  accepted "a -> x='1' | x=b; b -> 'z' '!';" [("a", 1)].
  split; vm_compute; reflexivity.
Qed.
Print Assumptions C66_mixed_refuted.

(** C67: what a getter gives for a reference is the node of that rule, with the parts that the rule makes, ... *)
Theorem C67_references : forall g t v l, level [g] t v l -> scopes t = [] -> forall x, references_only x t = true -> prefix "@" x = false ->
  forall n, In n (named x l) -> exists u v1 l1 b1, lookup x g = Some u /\ level [g] u v1 l1 /\ made_of l1 b1 /\ n = ABranch b1 /\ incl (leaves v1) (leaves v).
Proof. exact node_of_rule. Qed.
Print Assumptions C67_references.
(** With the grammar of [C65_example]. *)
Example C67_example :
  let g := built let_text in
  match lookup "let" g with Some t => scopes t = [] /\ references_only "bind" t = true | None => False end /\
  match child_of g "let" "LETx=1,y=2INx" "bind" with Some (ABranch b) => map fst b = ["name"; ""; "val"] | _ => False end.
Proof. vm_compute. auto. Qed.

(** ... but not for a reference with a name: that is a node whose only child is the node of the rule, and so the
    getters of its type find nothing. *)
Theorem C67_named : forall gs x r v n, level gs (TNamed x (TRule r)) v [(x, n)] ->
  exists b m, n = ABranch b /\ made_of [(stem r, m)] b /\ level gs (TRule r) v [(stem r, m)].
Proof. exact named_wraps. Qed.
Print Assumptions C67_named.
Theorem C67_named_refuted : exists g ds b g' n m,
  let x := "a -> x=b '!'; b -> y='1' z='2';" in
  accepts x g /\ generated_types to_camel Z.of_nat g = COk ds /\ conversion g "a" "12!" = Some (COk (b, g')) /\
  method_of ds "ANode" "OneX" = Some (MOne "x" (Some "BNode")) /\ ask ds "ANode" "OneX" (ABranch b) = Some (COk (ANode (Some n))) /\
  ask ds "BNode" "OneY" n = Some (COk (AText [])) /\
  first_of (Some n) "b" = Some m /\ ask ds "BNode" "OneY" m = Some (COk (AText (bs "1"))).
Proof.
  exists (built "a -> x=b '!'; b -> y='1' z='2';"), (types_of "a -> x=b '!'; b -> y='1' z='2';"). eexists. eexists. eexists. eexists.
  accepted "a -> x=b '!'; b -> y='1' z='2';" [("a", 1)].
  split; [vm_compute; reflexivity|]. split; [vm_compute; reflexivity|]. split; [vm_compute; reflexivity|].
  split; [vm_compute; reflexivity|]. split; vm_compute; reflexivity.
Qed.
Print Assumptions C67_named_refuted.
