(** Property C84: the texts of validation errors say what is wrong and where. *)
From Verif Require Import Base Scanner Syntax Engine Regex Demo Resolve WbnfGrammar Ast WbnfAst Walker WalkerSpec WalkerProofs Build Recursion RecursionSpec Validate Front FrontDemo FrontSpec Prop_Recursion
  ValidSpec ValidProofs Treeview Messages MessagesSpec MessagesProofs MessagesText MessagesRoutes Prop_Valid.
Local Open Scope list_scope.

(** C84: the errors with texts are those that validation gives without them, in order. *)
Theorem C84_kinds : forall E err rt fuel n f, validate_messages E err rt fuel n = COk f -> validate E rt fuel n = COk (map m_kind (messages f)).
Proof. exact kinds_agree. Qed.
Print Assumptions C84_kinds.

(** When no name is defined twice, the text of the error of validation is a list in brackets.  Its entries are exactly the complaints about the nodes
    that validation looks at, each with the token that is wrong and its offset, and one that lists the routes when there are some. *)
Theorem C84_texts : forall E err rt fuel n f xs, (forall p l, Permutation (rt_ord rt p l) l) -> (forall d, Permutation (rt_keys rt d) (keys d)) ->
  validate_messages E err rt fuel n = COk f -> names n xs -> printable n ->
  (forall d x, collect_dangers fuel n = COk d -> In x (graph_names d) -> no_percent x) -> NoDup xs ->
  exists d routes ts, collect_dangers fuel n = COk d /\ bad_routes rt d = Some routes /\ failure_text f = COk (Some (bracketed ts)) /\ length ts = length (messages f) /\
    forall t, In t ts <-> (exists k m, enters closed n k m /\ complaint E err xs (macro_called n) k m t) \/ routes <> [] /\ t = cycle_text routes.
Proof. exact texts_of_validation. Qed.
Print Assumptions C84_texts.

(** Otherwise the text lists, in order, the names that were defined before. *)
Theorem C84_duplicates : forall E err rt fuel n f xs, validate_messages E err rt fuel n = COk f -> names n xs -> ~ NoDup xs -> (forall x, In x xs -> no_percent x) ->
  exists ys, redefined [] xs ys /\ failure_text f = COk (Some (bs "the following rule(s) are defined multiple times: [" ++ join_sep (bs " ") (map bs ys) ++ bs "]")).
Proof. exact text_of_duplicates. Qed.
Print Assumptions C84_duplicates.

(** If every append copied, each route that is listed would end with a cycle of rules that can start with each other. *)
Theorem C84_routes : forall rt d routes, (forall p l, Permutation (rt_ord rt p l) l) -> Permutation (rt_keys rt d) (keys d) -> rt_grow rt = S -> ~ In ""%string (keys d) ->
  bad_routes rt d = Some routes -> forall r, In r routes -> exists a k c, r = a ++ (k :: c) ++ [k] /\ chain d k (k :: c) k /\ NoDup (a ++ k :: c).
Proof. exact routes_cycle. Qed.
Print Assumptions C84_routes.

(** Texts of errors; [E] stands for the error of the regular expression. *)
Definition found (rt : runtime) (x : string) : cres failure := validate_messages regex_engine (fun _ => bs "E") rt 300 (tree_of x).
Definition told (x : string) : cres (option string) :=
  cbind (found plain_runtime x) (fun f => cbind (failure_text f) (fun t => COk (option_map sb t))).
Example C84_example :
  told "a -> 'x' zz;" = COk (Some "[identifier 'zz' is not a defined rule@ 9]"%string) /\
  told "a -> /{x[};" = COk (Some "[regex '/{x[}' is not valid, E@ 5]"%string) /\
  told "a -> 'x'; b -> a='y';" = COk (Some "[identifier 'a' clashes with a defined rule@ 15]"%string) /\
  told "a -> 'x'{3,2};" = COk (Some "[quant: min (3) > max (2)]"%string) /\
  told "a -> x='x' x='y';" = COk (Some "[identifier 'x' is being used multiple times in a single term@ 11]"%string) /\
  told "a -> %!m('x');" = COk (Some "[Attempting to call m which is not a macro@ 7]"%string) /\
  told "a -> b; b -> a;" = COk (Some (String.append "[Possible cycle(s) detected: " (sb ([nl; "009"%char] ++ bs "a > b > a" ++ [nl; "009"%char] ++ bs "b > a > b]")))) /\
  told "a -> 'x'; b -> 'y'; a -> zz; b -> 'z'; a -> 'y';" = COk (Some "the following rule(s) are defined multiple times: [a b a]"%string) /\
  told ".macro m(p, p) { p } a -> zz yy='a' yy='b' 'x'{3,2} %!m('x');" = COk (Some (String.append
    "[macro arg 'p' clashes with a defined rule@ 12 identifier 'yy' is being used multiple times in a single term@ 36 "
    "identifier 'zz' is not a defined rule@ 26 quant: min (3) > max (2) Macro m expected 2 args, given 1]")).
Proof. repeat split; vm_compute; reflexivity. Qed.

(** A text with faults meets the hypotheses of [C84_texts]. *)
Definition faulty : string := ".macro m(p, p) { p } a -> b zz yy='a' yy='b' 'x'{3,2} %!m('x'); b -> a;".
Example C84_texts_example : exists f d, found plain_runtime faulty = COk f /\ length (messages f) = 6 /\ names (tree_of faulty) ["m"; "a"; "b"]%string /\ NoDup ["m"; "a"; "b"]%string /\
  printable (tree_of faulty) /\ collect_dangers 300 (tree_of faulty) = COk d /\ forall x, In x (graph_names d) -> no_percent x.
Proof.
  destruct (found plain_runtime faulty) as [f| |] eqn:F; [|vm_compute in F; discriminate|vm_compute in F; discriminate].
  destruct (collect_dangers 300 (tree_of faulty)) as [d| |] eqn:D; [|vm_compute in D; discriminate|vm_compute in D; discriminate].
  exists f, d. split; auto. split; [revert F; vm_compute; intros F; injection F as <-; reflexivity|]. split; [|split; [|split; [|split]]]; auto.
  - destruct (find_defined_rules 300 (tree_of faulty)) as [e| |] eqn:G; [|vm_compute in G; discriminate|vm_compute in G; discriminate].
    assert (Q : d_dupes e = [] /\ d_names e = ["m"; "a"; "b"]%string) by (revert G; vm_compute; intros G; injection G as <-; auto). destruct Q as [Q1 Q2].
    destruct (find_defined _ _ _ G) as (xs & N & _ & R). destruct (R Q1) as [R1 _]. rewrite <- Q2, R1. exact N.
  - repeat (constructor; [cbn [In]; intuition discriminate|]). constructor.
  - apply (printable_check 300). vm_compute. reflexivity.
  - intros x X. apply percent_free. revert x X. apply Forall_forall. revert D. vm_compute. intros D. injection D as <-. repeat constructor.
Qed.
Example C84_routes_example : exists d, collect_dangers 300 (tree_of "a -> b; b -> c | 'x'; c -> b;") = COk d /\ ~ In ""%string (keys d) /\
  bad_routes (mkRuntime S keys (fun _ l => l)) d = Some [["a"; "b"; "c"; "b"]; ["b"; "c"; "b"]; ["c"; "b"; "c"]]%string.
Proof. eexists. split; [vm_compute; reflexivity|]. split; [cbn; intuition discriminate|vm_compute; reflexivity]. Qed.

(** But appends share arrays: the route that is listed can lead from a rule to one that it cannot start with, here from g to a. *)
Definition shared_cells : string := "a -> b; b -> c; c -> d; d -> e; e -> f | g; f -> a; g -> 'x';".
Theorem C84_routes_refuted : exists rt x d routes before u v after, runtime_ok rt /\ collect_dangers 300 (tree_of x) = COk d /\ bad_routes rt d = Some routes /\
  In (before ++ u :: v :: after) routes /\ ~ edge d u v.
Proof.
  exists plain_runtime, shared_cells. eexists. eexists. exists ["a"; "b"; "c"; "d"; "e"]%string, "g"%string, "a"%string, []. split; [exact plain_runtime_ok|].
  split; [vm_compute; reflexivity|]. split; [vm_compute; reflexivity|]. split; [now left|]. intros (l & L & I). vm_compute in L. injection L as <-. destruct I.
Qed.
Print Assumptions C84_routes_refuted.

(** And the texts about bounds of quantifiers give no place: they are the same for a fault at another place. *)
Theorem C84_place_refuted : exists x y, x <> y /\ told x = COk (Some "[quant: min (3) > max (2)]"%string) /\ told y = COk (Some "[quant: min (3) > max (2)]"%string).
Proof.
  exists "a -> 'x'{3,2} 'y';"%string, "a -> 'x' 'y'{3,2};"%string. split; [discriminate|]. split; vm_compute; reflexivity.
Qed.
Print Assumptions C84_place_refuted.
