(** Properties C59 to C64: the Go types that wbnf gen writes for a grammar. *)
From Verif Require Import Base Scanner ScannerSpec Syntax Engine Resolve Compile Parse Regex Demo CutSpec ApiSpec ApiProofs StackSpec PegSpec DerivSpec CutPoints CutPointProofs
  WbnfGrammar Ast AstSpec AstParse AstFits AstDemo WbnfAst Walker Build Recursion Validate Front FrontSpec FrontProofs FrontDemo FrontCheck Prop_Refs Prop_Boot
  Types TypesSpec TypesTop TypesRun TypesOnce TypesWalk WbnfTypes.
Local Open Scope string_scope.

(** The model makes exactly the shipped types of wbnf's own grammar. *)
Example shipped_by_model : generated_types to_camel Z.of_nat core_grammar = COk shipped_types.
Proof. vm_compute. reflexivity. Qed.

(** C59: every child of a node of a rule can be read with a method of the type of the rule.  On trees of the grammar, ... *)
Theorem C59_trees : forall camel rand g ds, proper_names g -> generated_types camel rand g = COk ds ->
  forall r t, lookup r g = Some t -> forall lits, open_term lits t = true ->
  forall gs v ks, fits gs t v ks -> forall x, In x ks -> (lits = true -> x <> "") ->
  reads_child ds (go_type_name camel (go_name camel r)) x.
Proof. exact tree_child. Qed.
Print Assumptions C59_trees.

(** ... and on the ASTs of what the parser of the grammar has parsed. *)
Theorem C59_parsed : forall camel rand g ds, proper_names g -> generated_types camel rand g = COk ds ->
  smooth_grammar g -> coherent g -> readable g -> forall cf ps, cf_esc cf = None -> compile (cf_eng cf) g = COk ps ->
  forall r t, r <> WrapRE -> r <> "" -> lookup r g = Some t -> own_tag t = true ->
  forall lits, open_term lits t = true -> (forall m, In m (map fst (turns t)) -> ordinary m = true) ->
  forall f s v s', drawn_ok (cf_rnd cf) (draws cf f ps r s) -> result (parse_rule cf f ps r s) v s' ->
  forall n b g' k c, from_parser_node n g v = COk (b, g') -> lookup k b = Some c -> prefix "@" k = false ->
  (lits = true -> k <> "") -> reads_child ds (go_type_name camel (go_name camel r)) k.
Proof. exact parsed_child. Qed.
Print Assumptions C59_parsed.

Definition call_text : string := "call -> fn=name '(' arg=name:',' ')'; name -> /{[a-z]+};".
Definition types_of (x : string) : list decl := match generated_types to_camel Z.of_nat (built x) with COk ds => ds | _ => [] end.
Example C59_example :
  let g := built call_text in
  proper_names g /\ generated_types to_camel Z.of_nat g = COk (types_of call_text) /\
  smooth_grammar g /\ coherent g /\ readable g /\ compile regex_engine g = COk (parsers_of g) /\
  match lookup "call" g with
  | Some t => own_tag t = true /\ open_term true t = true /\ forall m, In m (map fst (turns t)) -> ordinary m = true
  | None => False
  end /\
  match conversion g "call" "f(x,y)" with
  | Some (COk (b, _)) => map fst b = ["@rule"; "fn"; ""; "arg"]
  | _ => False
  end /\
  types_of call_text =
  [DType "CallNode"; DMethod "CallNode" "AllArg" (MAll "arg" (Some "NameNode"));
   DMethod "CallNode" "OneFn" (MOne "fn" (Some "NameNode")); DMethod "CallNode" "OneToken" (MOne "" None);
   DMethod "CallNode" "AllToken" (MAll "" None);
   DType "NameNode"; DMethod "NameNode" "String" MString].
Proof.
  split; [repeat split; vm_compute; reflexivity|]. split; [vm_compute; reflexivity|].
  split; [apply smooth_grammar_b_ok; vm_compute; reflexivity|]. split; [apply coherent_b_ok; vm_compute; reflexivity|].
  split; [split; vm_compute; reflexivity|]. split; [vm_compute; reflexivity|]. split.
  - vm_compute. split; auto. split; auto. intros m H. repeat destruct H as [<-|H]; auto.
  - split; vm_compute; reflexivity.
Qed.

(** Checking the methods of a type. *)
Definition same_method (T x : string) (all : bool) (d : decl) : bool :=
  match d with
  | DMethod T' _ (MAll y _) => String.eqb T T' && String.eqb x y
  | DMethod T' _ (MOne y _) | DMethod T' _ (MRef y) => negb all && String.eqb T T' && String.eqb x y
  | DMethod T' _ MString => negb all && String.eqb T T' && String.eqb x ""
  | _ => false
  end%bool.
Lemma unread : forall ds T x, existsb (same_method T x false) ds = false -> ~ reads_child ds T x.
Proof.
  intros ds T x E (n & m & I & H). apply Bool.not_true_iff_false in E. apply E. apply existsb_exists. eexists. split; [exact I|].
  destruct H as [(ret & [-> | ->])|[->|(-> & ->)]]; simpl; now rewrite !String.eqb_refl.
Qed.
Lemma not_all : forall ds T x, existsb (same_method T x true) ds = false -> ~ reads_all ds T x.
Proof.
  intros ds T x E (n & ret & I). apply Bool.not_true_iff_false in E. apply E. apply existsb_exists. eexists. split; [exact I|].
  simpl. now rewrite !String.eqb_refl.
Qed.

(** An accepted text, the getters of its types, and a text whose AST has children that the getters do not show. *)
Definition accepts (x : string) (g : grammar) : Prop :=
  forall rt, runtime_ok rt -> build_text (with_runtime rt (desk [])) wbnf_front 9 300 (bs x) = COk (inr g).
Definition children_of (g : grammar) (r y k : string) : list anode :=
  match conversion g r y with Some (COk (b, _)) => children_at k b | _ => [] end.
Definition hidden (x : string) : Prop := exists g ds r y k, accepts x g /\ generated_types to_camel Z.of_nat g = COk ds /\
  children_of g r y k <> [] /\ ~ reads_child ds (go_type_name to_camel (go_name to_camel r)) k.
Ltac shown x rank r y k ref :=
  let A := fresh in
  assert (A : accepted_b (desk []) wbnf_front 9 300 (bs x) rank = Some (built x)) by (vm_compute; reflexivity);
  exists (built x), (types_of x), r, y, k; split; [exact (accepted_b_ok _ _ _ _ _ _ _ A)|]; split; [vm_compute; reflexivity|];
  split; [vm_compute; ref|].

(** Not everything: separators that are rules or groups end up in a type of their own, which nothing returns, ... *)
Theorem C59_rule_separator_refuted : hidden "list -> /{[a-z]}:comma; comma -> ',' ;".
Proof. shown "list -> /{[a-z]}:comma; comma -> ',' ;" [("list", 1)] "list" "a,b" "comma" discriminate. apply unread. vm_compute. reflexivity. Qed.
Print Assumptions C59_rule_separator_refuted.
Theorem C59_group_separator_refuted : hidden "list -> /{[a-z]}:(sep=',' | sep=';');".
Proof. shown "list -> /{[a-z]}:(sep=',' | sep=';');" (@nil (string * nat)) "list" "a,b" "sep" discriminate. apply unread. vm_compute. reflexivity. Qed.
Print Assumptions C59_group_separator_refuted.
(** ... and a rule with the name Token hides the tokens. *)
Theorem C59_token_refuted : hidden "a -> Token '!'; Token -> 't';".
Proof. shown "a -> Token '!'; Token -> 't';" [("a", 1)] "a" "t!" "" discriminate. apply unread. vm_compute. reflexivity. Qed.
Print Assumptions C59_token_refuted.

(** C60: when a node can have several children of a name, there is a method that gives all of them: always, if the generator
    notices that: on trees of the grammar, ... *)
Theorem C60_all_given : forall camel rand g ds, proper_names g -> generated_types camel rand g = COk ds ->
  forall r t, lookup r g = Some t -> forall lits, open_term lits t = true ->
  forall gs v ks, fits gs t v ks -> forall x, 2 <= count_occ string_dec ks x -> (lits = true -> x <> "") ->
  (2 <= most x t -> noticed x t = true) -> reads_all ds (go_type_name camel (go_name camel r)) x.
Proof. exact tree_all. Qed.
Print Assumptions C60_all_given.

(** ... and on the ASTs of what the parser of the grammar has parsed. *)
Theorem C60_parsed : forall camel rand g ds, proper_names g -> generated_types camel rand g = COk ds ->
  smooth_grammar g -> coherent g -> readable g -> forall cf ps, cf_esc cf = None -> compile (cf_eng cf) g = COk ps ->
  forall r t, r <> WrapRE -> r <> "" -> lookup r g = Some t -> own_tag t = true ->
  forall lits, open_term lits t = true -> (forall m, In m (map fst (turns t)) -> ordinary m = true) ->
  forall f s v s', drawn_ok (cf_rnd cf) (draws cf f ps r s) -> result (parse_rule cf f ps r s) v s' ->
  forall n b g' k, from_parser_node n g v = COk (b, g') -> 2 <= length (children_at k b) -> prefix "@" k = false ->
  (lits = true -> k <> "") -> (2 <= most k t -> noticed k t = true) -> reads_all ds (go_type_name camel (go_name camel r)) k.
Proof. exact parsed_all. Qed.
Print Assumptions C60_parsed.

(** With the grammar of [C59_example]. *)
Example C60_example :
  let g := built call_text in
  match lookup "call" g with
  | Some t => (forall x, In x ["fn"; "arg"; ""] -> 2 <= most x t -> noticed x t = true) /\ most "arg" t = 2%nat
  | None => False
  end /\ length (children_of g "call" "f(x,y)" "arg") = 2%nat.
Proof.
  vm_compute. split; auto. split; auto. intros x H M. repeat destruct H as [<-|H]; auto; try contradiction. exfalso. inversion M as [|? M1]. inversion M1.
Qed.

(** It does not notice a name that is given again inside a group, a reference next to a choice that has it too, and the second of two
    tokens when the first one starts the rule; wbnf's own RefNode has only OneToken, and a reference with a default has
    two tokens. *)
Definition only_one (x : string) : Prop := exists g ds r y k, accepts x g /\ generated_types to_camel Z.of_nat g = COk ds /\
  2 <= length (children_of g r y k) /\ ~ reads_all ds (go_type_name to_camel (go_name to_camel r)) k.
Theorem C60_name_again_refuted : only_one "a -> x='1' (x='2' | 'y');".
Proof. shown "a -> x='1' (x='2' | 'y');" (@nil (string * nat)) "a" "12" "x" auto. apply not_all. vm_compute. reflexivity. Qed.
Print Assumptions C60_name_again_refuted.
Theorem C60_in_choice_refuted : only_one "a -> b ('x' | b); b -> 'y';".
Proof. shown "a -> b ('x' | b); b -> 'y';" [("a", 1)] "a" "yy" "b" auto. apply not_all. vm_compute. reflexivity. Qed.
Print Assumptions C60_in_choice_refuted.
Theorem C60_first_token_refuted : only_one "a -> 'x' 'y';".
Proof. shown "a -> 'x' 'y';" (@nil (string * nat)) "a" "xy" "" auto. apply not_all. vm_compute. reflexivity. Qed.
Print Assumptions C60_first_token_refuted.
Theorem C60_shipped_refuted : 2 <= length (children_of core_grammar "REF" "%b='c'" "") /\ ~ reads_all shipped_types "RefNode" "".
Proof. split; [vm_compute; auto|]. apply not_all. vm_compute. reflexivity. Qed.
Print Assumptions C60_shipped_refuted.

(** C61: making the types never panics, if all references are to rules that are there and every rule has something to show ... *)
Theorem C61_types_made : forall camel rand g, settled_grammar g = true -> exists ds, generated_types camel rand g = COk ds.
Proof. exact types_made. Qed.
Print Assumptions C61_types_made.
Example C61_example : settled_grammar core_grammar = true /\ settled_grammar (built call_text) = true.
Proof. split; vm_compute; reflexivity. Qed.
(** ... an accepted text with a rule that is an external reference makes it panic. *)
Theorem C61_external_refuted : exists x g, accepts x g /\ generated_types to_camel Z.of_nat g = CPanic.
Proof.
  set (x := "a -> b '!'; b -> %%ext;").
  assert (A : accepted_b (desk []) wbnf_front 9 300 (bs x) [("a", 1)] = Some (built x)) by (vm_compute; reflexivity).
  exists x, (built x). split; [exact (accepted_b_ok _ _ _ _ _ _ _ A)|]. vm_compute. reflexivity.
Qed.
Print Assumptions C61_external_refuted.

(** C62: every type that a getter returns is declared ... *)
Theorem C62_results_declared : forall camel rand g tops ds, settled_grammar g = true ->
  (forall r, In r tops -> In r (map fst g) /\ go_name camel (go_name camel r) = go_name camel r) ->
  forallb (fun kv => returned tops (snd kv)) g = true -> generated_types camel rand g = COk ds ->
  forall T n m R, In (DMethod T n m) ds -> result_type m = Some R -> In (DType R) ds.
Proof. exact results_declared. Qed.
Print Assumptions C62_results_declared.
Example C62_example : settled_grammar core_grammar = true /\
  (forall r, In r ["IDENT"; "STR"; "INT"; "term"] -> In r (map fst core_grammar) /\ go_name to_camel (go_name to_camel r) = go_name to_camel r) /\
  forallb (fun kv => returned ["IDENT"; "STR"; "INT"; "term"] (snd kv)) core_grammar = true.
Proof.
  split; [vm_compute; reflexivity|]. split; [|vm_compute; reflexivity].
  intros r I. repeat (destruct I as [<-|I]; [split; [vm_compute; tauto|vm_compute; reflexivity]|]). contradiction.
Qed.
(** ... but not for a named reference to a rule of a nested grammar, or to a rule whose name has single letters between
    underscores, nor for a name given to an external reference. *)
Definition undeclared (x : string) : Prop := exists g ds T n m R, accepts x g /\ generated_types to_camel Z.of_nat g = COk ds /\
  In (DMethod T n m) ds /\ result_type m = Some R /\ ~ In (DType R) ds.
Definition lacks (ds : list decl) (R : string) : bool := forallb (fun d => match d with DType R' => negb (String.eqb R R') | _ => true end) ds.
Lemma lacks_ok : forall ds R, lacks ds R = true -> ~ In (DType R) ds.
Proof. intros ds R L I. unfold lacks in L. rewrite forallb_forall in L. specialize (L _ I). simpl in L. now rewrite String.eqb_refl in L. Qed.
Ltac missing x rank T n m R :=
  let A := fresh in
  assert (A : accepted_b (desk []) wbnf_front 9 300 (bs x) rank = Some (built x)) by (vm_compute; reflexivity);
  exists (built x), (types_of x), T, n, m, R; split; [exact (accepted_b_ok _ _ _ _ _ _ _ A)|]; split; [vm_compute; reflexivity|];
  split; [vm_compute; tauto|]; split; [reflexivity|]; apply lacks_ok; vm_compute; reflexivity.
Theorem C62_nested_refuted : undeclared "a -> x=foo { foo -> 'f'; };".
Proof. missing "a -> x=foo { foo -> 'f'; };" [("a", 1)] "ANode" "OneX" (MOne "x" (Some "FooNode")) "FooNode". Qed.
Print Assumptions C62_nested_refuted.
Theorem C62_underscore_refuted : undeclared "a -> x=b_c; b_c -> '1';".
Proof. missing "a -> x=b_c; b_c -> '1';" [("a", 1)] "ANode" "OneX" (MOne "x" (Some "BCNode")) "BCNode". Qed.
Print Assumptions C62_underscore_refuted.
Theorem C62_external_refuted : undeclared "a -> x=%%b;".
Proof. missing "a -> x=%%b;" (@nil (string * nat)) "ANode" "OneX" (MOne "x" (Some "AxNode")) "AxNode". Qed.
Print Assumptions C62_external_refuted.

(** C63: no type and no method of a type is declared twice, for grammars without back references and "@" whose names stay
    different in Go ... *)
Theorem C63_declared_once : forall camel rand g ds, grammar_without "@" g = true -> forallb (fun kv => no_backs (snd kv)) g = true ->
  distinct_in_go (go_name camel) (grammar_labels g) -> generated_types camel rand g = COk ds -> NoDup (map header ds).
Proof. exact declared_once. Qed.
Print Assumptions C63_declared_once.
Definition header_dec (x y : string * option string) : {x = y} + {x <> y}.
Proof. decide equality; [decide equality; apply string_dec|apply string_dec]. Defined.
Definition once_b (ds : list decl) : bool :=
  if list_eq_dec header_dec (nodup header_dec (map header ds)) (map header ds) then true else false.
Lemma once_b_ok : forall ds, once_b ds = true <-> NoDup (map header ds).
Proof.
  intros ds. unfold once_b. destruct (list_eq_dec header_dec _ _) as [E|E]; split; auto; try discriminate.
  - intros _. rewrite <- E. apply NoDup_nodup.
  - intros N. exfalso. apply E. now apply nodup_fixed_point.
Qed.
Example C63_example :
  (let g := built call_text in grammar_without "@" g = true /\ forallb (fun kv => no_backs (snd kv)) g = true /\
    distinct_in_go (go_name to_camel) (grammar_labels g) /\ generated_types to_camel Z.of_nat g = COk (types_of call_text)) /\
  NoDup (map header shipped_types).
Proof.
  split; [|apply once_b_ok; vm_compute; reflexivity]. split; [vm_compute; reflexivity|]. split; [vm_compute; reflexivity|]. split; [|vm_compute; reflexivity].
  split; [|split].
  - intros x y Ix Iy. vm_compute in Ix, Iy. repeat destruct Ix as [<-|Ix]; try contradiction; repeat destruct Iy as [<-|Iy]; try contradiction; auto; vm_compute; discriminate.
  - intros x Ix. vm_compute in Ix. repeat destruct Ix as [<-|Ix]; try contradiction; vm_compute; discriminate.
  - vm_compute. intuition discriminate.
Qed.
(** ... but a rule named token gives a second OneToken, names that differ only in underscores or case the same methods, two
    back references the same method, and a stack with "@" in groups with names declares the methods for "@" again for
    every group. *)
Definition repeated_decl (x : string) : Prop := exists g ds, accepts x g /\ generated_types to_camel Z.of_nat g = COk ds /\ ~ NoDup (map header ds).
Ltac again x rank :=
  let A := fresh in
  assert (A : accepted_b (desk []) wbnf_front 9 300 (bs x) rank = Some (built x)) by (vm_compute; reflexivity);
  exists (built x), (types_of x); split; [exact (accepted_b_ok _ _ _ _ _ _ _ A)|]; split; [vm_compute; reflexivity|];
  rewrite <- once_b_ok; vm_compute; discriminate.
Theorem C63_token_refuted : repeated_decl "a -> 'x' token; token -> 'y';".
Proof. again "a -> 'x' token; token -> 'y';" [("a", 1)]. Qed.
Print Assumptions C63_token_refuted.
Theorem C63_names_refuted : repeated_decl "a -> left_arm='1' leftArm='2';".
Proof. again "a -> left_arm='1' leftArm='2';" [("a", 1)]. Qed.
Print Assumptions C63_names_refuted.
Theorem C63_back_refuted : repeated_decl "a -> %x %x x='1';".
Proof. again "a -> %x %x x='1';" [("a", 1)]. Qed.
Print Assumptions C63_back_refuted.
Theorem C63_stack_refuted : repeated_decl "a -> x=(@:'+') > y=(@:'*') > '1';".
Proof. again "a -> x=(@:'+') > y=(@:'*') > '1';" [("a", 1)]. Qed.
Print Assumptions C63_stack_refuted.

(** C64: the walk function of a type visits all nodes that its getters give.  The methods that it calls are declared, ... *)
Theorem C64_calls_declared : forall camel rand g ds ws, proper_names g -> generated_types camel rand g = COk ds -> generated_walks camel rand g = COk ws ->
  forall T getter all R, calls ws T getter all R ->
  exists x, In (DMethod T (getter_name getter all) (if all then MAll x (Some R) else MOne x (Some R))) ds.
Proof. exact calls_declared. Qed.
Print Assumptions C64_calls_declared.
(** ... every getter for nodes is called, or the one for all of them instead, ... *)
Theorem C64_nodes_called : forall camel rand g ds ws, proper_names g -> generated_types camel rand g = COk ds -> generated_walks camel rand g = COk ws ->
  forall T n m R, In (DMethod T n m) ds -> result_type m = Some R ->
  exists getter all, calls ws T getter all R /\ (n = getter_name getter all \/ (all = true /\ n = getter_name getter false)).
Proof. exact nodes_called. Qed.
Print Assumptions C64_nodes_called.
(** ... what it walks has a walk function, and what it only enters has none, ... *)
Theorem C64_walked_exist : forall camel rand g tops ws, proper_names g -> settled_grammar g = true ->
  (forall r, In r tops -> In r (map fst g) /\ go_name camel (go_name camel r) = go_name camel r) ->
  forallb (fun kv => returned tops (snd kv)) g = true -> generated_walks camel rand g = COk ws ->
  forall T l getter all R w, lookup T ws = Some l -> In (getter, all, R, w) l -> (w = true <-> lookup R ws <> None).
Proof. exact walked_exist. Qed.
Print Assumptions C64_walked_exist.
(** ... and the children of a parsed text are visited, all of them if the generator notices that there can be several, unless
    a token has their name or they are back references. *)
Theorem C64_children_visited : forall camel rand g ws, proper_names g -> generated_walks camel rand g = COk ws ->
  smooth_grammar g -> coherent g -> readable g -> forall cf ps, cf_esc cf = None -> compile (cf_eng cf) g = COk ps ->
  forall r t, r <> WrapRE -> r <> "" -> lookup r g = Some t -> own_tag t = true ->
  forall lits, open_term lits t = true -> (forall m, In m (map fst (turns t)) -> ordinary m = true) ->
  forall f s v s', drawn_ok (cf_rnd cf) (draws cf f ps r s) -> result (parse_rule cf f ps r s) v s' ->
  forall n b g' k c, from_parser_node n g v = COk (b, g') -> lookup k b = Some c -> prefix "@" k = false ->
  k <> "" -> ~ In (k, true) (turns t) -> ~ In k (grammar_tokens g) ->
  exists all R, calls ws (go_type_name camel (go_name camel r)) (go_name camel k) all R /\
    (2 <= length (children_at k b) -> (2 <= most k t -> noticed k t = true) -> all = true).
Proof. exact parsed_called. Qed.
Print Assumptions C64_children_visited.

(** The hypotheses hold for the text of C59; the walks of wbnf's own grammar are those of the shipped walker. *)
Definition walks_of (x : string) : list (string * list (string * bool * string * bool)) :=
  match generated_walks to_camel Z.of_nat (built x) with COk ws => ws | _ => [] end.
Example C64_example :
  let g := built call_text in
  proper_names g /\ settled_grammar g = true /\ forallb (fun kv => returned ["name"] (snd kv)) g = true /\
  go_name to_camel (go_name to_camel "name") = go_name to_camel "name" /\
  grammar_tokens g = [] /\ match lookup "call" g with Some t => turns t = [("fn", false); ("", false); ("arg", false); ("", false)] | None => False end /\
  generated_walks to_camel Z.of_nat g = COk (walks_of call_text) /\
  walks_of call_text = [("CallNode", [("Arg", true, "NameNode", false); ("Fn", false, "NameNode", false)])] /\
  length (children_of g "call" "f(x,y)" "arg") = 2.
Proof. split; [repeat split; vm_compute; reflexivity|]. do 7 (split; [vm_compute; reflexivity|]). vm_compute. reflexivity. Qed.
Definition kind_name (k : kind) : string :=
  match k with
  | KAtomExtRef => "AtomExtRefNode" | KAtom => "AtomNode" | KComment => "CommentNode" | KGrammar => "GrammarNode" | KIdent => "IdentNode"
  | KInt => "IntNode" | KMacrocall => "MacrocallNode" | KNamed => "NamedNode" | KPragmaImport => "PragmaImportNode"
  | KPragmaImportPath => "PragmaImportPathNode" | KPragmaMacrodef => "PragmaMacrodefNode" | KPragma => "PragmaNode" | KProd => "ProdNode"
  | KQuant => "QuantNode" | KRe => "ReNode" | KRef => "RefNode" | KStmt => "StmtNode" | KStr => "StrNode" | KTerm => "TermNode" | KWrapRe => "WrapReNode"
  end.
Example shipped_walks : exists ws, generated_walks to_camel Z.of_nat core_grammar = COk ws /\
  forall k, lookup (kind_name k) ws =
    if leaf_kind k then None
    else Some (map (fun '(x, many, k') => (go_name to_camel x, many, kind_name k', negb (leaf_kind k'))) (fields k)).
Proof.
  exists (match generated_walks to_camel Z.of_nat core_grammar with COk ws => ws | _ => [] end). split; [vm_compute; reflexivity|].
  intros []; vm_compute; reflexivity.
Qed.

(** Not in general: in a stack with named layers the walk functions call methods that no type has, ... *)
Definition uncallable (ds : list decl) (T n : string) : bool :=
  negb (existsb (fun d => match d with DMethod T' n' _ => String.eqb T T' && String.eqb n n' | _ => false end) ds)%bool.
Lemma uncallable_ok : forall ds T n m, uncallable ds T n = true -> ~ In (DMethod T n m) ds.
Proof.
  intros ds T n m E I. unfold uncallable in E. apply negb_true_iff in E. apply Bool.not_true_iff_false in E. apply E. apply existsb_exists.
  eexists. split; [exact I|]. simpl. now rewrite !String.eqb_refl.
Qed.
Theorem C64_stack_refuted : exists x g ds ws T getter all R, accepts x g /\ generated_types to_camel Z.of_nat g = COk ds /\
  generated_walks to_camel Z.of_nat g = COk ws /\ calls ws T getter all R /\ forall m, ~ In (DMethod T (getter_name getter all) m) ds.
Proof.
  set (x := "a -> x=(@:'+') > '1';").
  assert (A : accepted_b (desk []) wbnf_front 9 300 (bs x) [("a", 1)] = Some (built x)) by (vm_compute; reflexivity).
  exists x, (built x), (types_of x), (walks_of x), "AxNode", "A", true, "ANode". split; [exact (accepted_b_ok _ _ _ _ _ _ _ A)|].
  split; [vm_compute; reflexivity|]. split; [vm_compute; reflexivity|]. split.
  - exists [("A", true, "ANode", true)], true. split; [vm_compute; reflexivity|now left].
  - intros m. apply uncallable_ok. vm_compute. reflexivity.
Qed.
Print Assumptions C64_stack_refuted.
(** ... a node whose name a token has elsewhere in the rule is not visited, ... *)
Definition called_b (ws : list (string * list (string * bool * string * bool))) (T getter : string) (all : bool) : bool :=
  match lookup T ws with
  | Some l => existsb (fun e => match e with (n, a, _, _) => String.eqb n getter && (negb all || a) end)%bool l
  | None => false
  end.
Lemma not_called : forall ws T getter, called_b ws T getter false = false -> forall all R, ~ calls ws T getter all R.
Proof.
  intros ws T getter E al R (l & w & L & I). unfold called_b in E. rewrite L in E. apply Bool.not_true_iff_false in E. apply E. apply existsb_exists.
  eexists. split; [exact I|]. simpl. now rewrite String.eqb_refl.
Qed.
Lemma not_all_called : forall ws T getter, called_b ws T getter true = false -> forall R, ~ calls ws T getter true R.
Proof.
  intros ws T getter E R (l & w & L & I). unfold called_b in E. rewrite L in E. apply Bool.not_true_iff_false in E. apply E. apply existsb_exists.
  eexists. split; [exact I|]. simpl. now rewrite String.eqb_refl.
Qed.
Theorem C64_token_refuted : exists x g ws r y k, accepts x g /\ generated_walks to_camel Z.of_nat g = COk ws /\
  match children_of g r y k with [ABranch _] => True | _ => False end /\ forall all R, ~ calls ws (go_type_name to_camel (go_name to_camel r)) (go_name to_camel k) all R.
Proof.
  set (x := "a -> x='1' | x=b; b -> 'z' '!';").
  assert (A : accepted_b (desk []) wbnf_front 9 300 (bs x) [("a", 1)] = Some (built x)) by (vm_compute; reflexivity).
  exists x, (built x), (walks_of x), "a", "z!", "x". split; [exact (accepted_b_ok _ _ _ _ _ _ _ A)|].
  split; [vm_compute; reflexivity|]. split; [vm_compute; exact Logic.I|]. apply not_called. vm_compute. reflexivity.
Qed.
Print Assumptions C64_token_refuted.
(** ... and of two nodes only the first is, when the second is in a choice. *)
Theorem C64_in_choice_refuted : exists x g ws r y k, accepts x g /\ generated_walks to_camel Z.of_nat g = COk ws /\
  length (children_of g r y k) = 2 /\ forall R, ~ calls ws (go_type_name to_camel (go_name to_camel r)) (go_name to_camel k) true R.
Proof.
  set (x := "a -> b ('x' | b); b -> 'y';").
  assert (A : accepted_b (desk []) wbnf_front 9 300 (bs x) [("a", 1)] = Some (built x)) by (vm_compute; reflexivity).
  exists x, (built x), (walks_of x), "a", "yy", "b". split; [exact (accepted_b_ok _ _ _ _ _ _ _ A)|].
  split; [vm_compute; reflexivity|]. split; [vm_compute; reflexivity|]. apply not_all_called. vm_compute. reflexivity.
Qed.
Print Assumptions C64_in_choice_refuted.
