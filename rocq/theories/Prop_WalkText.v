(** C89 and C90: the text of the generated walker, read as Go. *)
From Verif Require Import Base Scanner ScannerSpec Syntax Engine Resolve Compile Parse Regex Demo CutSpec ApiSpec ApiProofs StackSpec PegSpec DerivSpec CutPoints CutPointProofs
  WbnfGrammar Ast AstSpec AstParse AstFits AstDemo WbnfAst Walker Build Recursion Validate Front FrontSpec FrontProofs FrontDemo FrontCheck Prop_Refs Prop_Boot
  Types TypesSpec TypesTop TypesRun TypesOnce TypesWalk WbnfTypes Getters GenText GoText GenTextSpec WalkText GoWalk GoWalkProofs WalkTextSpec WalkTextProofs WalkLevel WalkerText ShippedWalk NodeStringProofs Prop_Types Prop_GenText.
From Coq Require Import Permutation.
Local Open Scope string_scope.
Local Open Scope list_scope.

(** If the names can be spelled in Go, the text holds a walk function for each type that has one, and for all callbacks, getters and other walk functions it does one level of a walk. *)
Theorem C89_walk_functions : forall camel rand g tm, make_types camel rand g = COk tm -> names_fit camel tm = true ->
  exists ws ds, Permutation ws (walks camel tm) /\ go_funcs (bs (walks_text (walks camel tm))) ds /\ Forall2 walk_function ws ds.
Proof. intros camel rand g tm _ F. exact (walks_text_ok _ (walks_fit camel tm F)). Qed.
Print Assumptions C89_walk_functions.
(** A text says one thing only. *)
Theorem C89_once : forall b ds ds', go_funcs b ds -> go_funcs b ds' -> ds = ds'.
Proof. exact go_funcs_once. Qed.
Print Assumptions C89_once.
Example C89_example : make_types to_camel Z.of_nat core_grammar = COk core_types /\ names_fit to_camel core_types = true /\
  map (fun w => (fst w, length (snd w))) (walks to_camel core_types) =
    [("AtomExtRefNode", 1); ("AtomNode", 8); ("GrammarNode", 1); ("MacrocallNode", 2); ("NamedNode", 2); ("PragmaImportNode", 1); ("PragmaImportPathNode", 0);
     ("PragmaMacrodefNode", 3); ("PragmaNode", 2); ("ProdNode", 2); ("QuantNode", 3); ("RefNode", 2); ("StmtNode", 3); ("TermNode", 4)].
Proof. vm_compute. repeat split. Qed.

(** The walk functions that are shipped are those of wbnf's own grammar, up to layout. *)
Lemma core_walks_read : exists ds ps ps', go_tokens (bs (walks_text (walks to_camel core_types))) = Some ps /\ go_tokens (bs shipped_walk_text) = Some ps' /\
  read_funcs 100 ps = Some ds /\ read_funcs 100 ps' = Some ds.
Proof.
  exists (match go_tokens (bs shipped_walk_text) with Some ps => match read_funcs 100 ps with Some ds => ds | None => [] end | None => [] end).
  exists (match go_tokens (bs (walks_text (walks to_camel core_types))) with Some ps => ps | None => [] end).
  exists (match go_tokens (bs shipped_walk_text) with Some ps => ps | None => [] end).
  split; [vm_compute; reflexivity|]. split; [vm_compute; reflexivity|]. split; vm_compute; reflexivity.
Qed.
Theorem C89_shipped : exists ws ds, go_funcs (bs (walks_text (walks to_camel core_types))) ds /\ go_funcs (bs shipped_walk_text) ds /\
  Permutation ws (walks to_camel core_types) /\ Forall2 walk_function ws ds.
Proof.
  destruct C89_example as (M & F & _). destruct (C89_walk_functions _ _ _ _ M F) as (ws & gs & P & S & D).
  destruct core_walks_read as (ds & ps & ps' & T & T' & R & R').
  assert (E : gs = ds) by (apply (C89_once _ _ _ S); exists ps, 100; exact (conj T R)). subst ds.
  exists ws, gs. split; [exact S|]. split; [exists ps', 100; exact (conj T' R')|]. exact (conj P D).
Qed.
Print Assumptions C89_shipped.

(** With the methods of the shipped types (C87) and the same for the children, they do what [Walker.walk] does. *)
Definition node_of (k : kind) (n : anode) : value := typed kind_name k n.
Definition methods_answer (getter : bytes -> value -> cres value) : Prop :=
  forall k x m n, In (DMethod (kind_name k) x m) shipped_types -> getter (bs x) (node_of k n) = cbind (answers m n) (fun a => COk (go_value m a)).
Definition method_b (d : decl) (T x : string) (m : method) : bool :=
  match d with
  | DMethod T' x' m' => (String.eqb T T' && String.eqb x x' && match m, m' with
      | MOne y (Some R), MOne y' (Some R') | MAll y (Some R), MAll y' (Some R') => String.eqb y y' && String.eqb R R'
      | _, _ => false end)%bool
  | _ => false
  end.
Lemma method_b_ok : forall ds T x m, existsb (fun d => method_b d T x m) ds = true -> In (DMethod T x m) ds.
Proof.
  intros ds T x m E. apply existsb_exists in E as ([|T' x' m'] & I & B); [discriminate|]. cbn [method_b] in B.
  apply andb_true_iff in B as [B C]. apply andb_true_iff in B as [A B]. apply String.eqb_eq in A, B. subst T' x'.
  destruct m as [| |y [R|]|y [R|]|]; destruct m' as [| |y' [R'|]|y' [R'|]|]; try discriminate C;
    apply andb_true_iff in C as [C D]; apply String.eqb_eq in C, D; subst; exact I.
Qed.
Definition field_method (f : string * bool * kind) : string * method :=
  match f with (x, many, k') => if many then ("All" ++ go_name to_camel x, MAll x (Some (kind_name k')))%string else ("One" ++ go_name to_camel x, MOne x (Some (kind_name k')))%string end.
Lemma fields_declared : forall k, forallb (fun f => existsb (fun d => method_b d (kind_name k) (fst (field_method f)) (snd (field_method f))) shipped_types) (fields k) = true.
Proof. intros []; vm_compute; reflexivity. Qed.
Lemma field_declared : forall k f, In f (fields k) -> In (DMethod (kind_name k) (fst (field_method f)) (snd (field_method f))) shipped_types.
Proof. intros k f I. apply method_b_ok. pose proof (fields_declared k) as F. rewrite forallb_forall in F. exact (F f I). Qed.

Lemma walks_same : forall camel rand g tm ws, make_types camel rand g = COk tm -> generated_walks camel rand g = COk ws -> walks camel tm = ws.
Proof. intros camel rand g tm ws M G. unfold generated_walks in G. rewrite M in G. cbn [cbind] in G. congruence. Qed.
Lemma Forall2_in : forall A B (P : A -> B -> Prop) l l' x, Forall2 P l l' -> In x l -> exists y, In y l' /\ P x y.
Proof. intros A B P l l' x F. induction F as [|a b l l' H F IH]; intros I; [contradiction|]. destruct I as [<-|I]; [exists b; split; [now left|exact H]|]. destruct (IH I) as (y & J & Q). exists y. split; [now right|exact Q]. Qed.
Theorem C89_walker : exists ds, go_funcs (bs shipped_walk_text) ds /\
  forall k, leaf_kind k = false -> exists d, In d ds /\ wf_name d = bs ("Walk" ++ kind_name k) /\
    forall St (enter exit : kind -> anode -> St -> cres (option stopper * St)) hooks walks getter fuel,
      (forall k n st, callback hooks ("Enter" ++ kind_name k) (node_of k n) st = enter k n st) ->
      (forall k n st, leaf_kind k = false -> callback hooks ("Exit" ++ kind_name k) (node_of k n) st = exit k n st) ->
      methods_answer getter ->
      (forall k n st, leaf_kind k = false -> walks (bs ("Walk" ++ kind_name k)) (node_of k n) st = walk enter exit (S fuel) k n st) ->
      forall n st, call_func hooks walks getter d (node_of k n) st = walk enter exit (S (S fuel)) k n st.
Proof.
  destruct C89_shipped as (ws & ds & _ & S & P & D). exists ds. split; [exact S|]. intros k L.
  destruct C89_example as (M & _ & _). destruct shipped_walks as (ws0 & G & W). pose proof (walks_same _ _ _ _ _ M G) as E. rewrite E in P. clear E G M S.
  specialize (W k). rewrite L in W. apply lookup_In in W. apply (Permutation_in _ (Permutation_sym P)) in W.
  destruct (Forall2_in _ _ _ _ _ _ D W) as (d & I & (_ & N & _ & _ & C)). exists d. split; [exact I|]. split; [exact N|].
  intros St enter exit hooks ws' getter fuel HE HX HG HW n st. rewrite C. cbn [fst snd].
  exact (level kind_name (go_name to_camel) enter exit hooks ws' getter fuel HE HX HW
    (fun k n x k' I => HG k _ _ n (field_declared k (x, true, k') I))
    (fun k n x k' I => eq_trans (HG k _ _ n (field_declared k (x, false, k') I)) (match one x n as o return COk (go_value (MOne x (Some (kind_name k'))) (ANode o)) = COk (match o with Some m => VPtr (typed kind_name k' m) | None => VNil end) with Some m => eq_refl | None => eq_refl end))
    k n st L).
Qed.
Print Assumptions C89_walker.
(** Callbacks, methods and walk functions as they are asked for: a walk that collects the types it enters and stops below macro calls. *)
Definition demo_enter (k : kind) (n : anode) (st : list kind) : cres (option stopper * list kind) := COk (match k with KMacrocall => Some NodeExiter | _ => None end, k :: st).
Definition demo_exit (k : kind) (n : anode) (st : list kind) : cres (option stopper * list kind) := COk (None, st).
Definition kinds : list kind := [KAtomExtRef; KAtom; KComment; KGrammar; KIdent; KInt; KMacrocall; KNamed; KPragmaImport; KPragmaImportPath; KPragmaMacrodef; KPragma; KProd; KQuant; KRe; KRef; KStmt; KStr; KTerm; KWrapRe].
Definition with_kind {A} (v : value) (other : A) (f : kind -> anode -> A) : A :=
  match v with
  | VStruct T (VNode n) => match List.find (fun k => beqb (bs (kind_name k)) T) kinds with Some k => f k n | None => other end
  | _ => other
  end.
Lemma with_kind_of : forall A k n (other : A) f, with_kind (node_of k n) other f = f k n.
Proof. intros A [] n other f; reflexivity. Qed.
Definition demo_hooks (f : bytes) : option (value -> list kind -> cres (option stopper * list kind)) :=
  if beqb (firstn 5 f) (bs "Enter") then Some (fun v st => with_kind v CDiv (fun k n => demo_enter k n st)) else None.
Definition demo_walks (fuel : nat) (f : bytes) (v : value) (st : list kind) : cres (option stopper * list kind) := with_kind v CDiv (fun k n => walk demo_enter demo_exit fuel k n st).
Definition has_name (T x : bytes) (d : decl) : bool := match d with DMethod T' x' _ => (beqb T (bs T') && beqb x (bs x'))%bool | _ => false end.
Definition demo_getter (x : bytes) (v : value) : cres value :=
  match v with
  | VStruct T (VNode n) => match List.find (has_name T x) shipped_types with Some (DMethod _ _ m) => cbind (answers m n) (fun a => COk (go_value m a)) | _ => CDiv end
  | _ => CDiv
  end.
Lemma named_found : forall T x m ds, NoDup (map header ds) -> In (DMethod T x m) ds -> List.find (has_name (bs T) (bs x)) ds = Some (DMethod T x m).
Proof.
  intros T x m. induction ds as [|d ds IH]; intros N I; [contradiction|]. cbn [map] in N. inversion N as [|? ? N1 N2]; subst. cbn [List.find].
  destruct (has_name (bs T) (bs x) d) eqn:H.
  - destruct d as [T'|T' x' m']; [discriminate|]. cbn [has_name] in H. apply andb_true_iff in H as [A B]. apply beqb_eq in A, B.
    apply bs_inj in A, B. subst T' x'. destruct I as [I|I]; [now rewrite I|]. destruct N1. exact (in_map header _ _ I).
  - destruct I as [->|I]; [cbn [has_name] in H; rewrite !beqb_refl in H; discriminate|]. exact (IH N2 I).
Qed.
Example C89_walker_example :
  (forall k n st, callback demo_hooks ("Enter" ++ kind_name k) (node_of k n) st = demo_enter k n st) /\
  (forall k n st, leaf_kind k = false -> callback demo_hooks ("Exit" ++ kind_name k) (node_of k n) st = demo_exit k n st) /\
  methods_answer demo_getter /\
  (forall k n st, leaf_kind k = false -> demo_walks 8 (bs ("Walk" ++ kind_name k)) (node_of k n) st = walk demo_enter demo_exit 8 k n st).
Proof.
  split; [intros [] n st; reflexivity|]. split; [intros [] n st _; reflexivity|]. split.
  - intros k x m n I. destruct C63_example as [_ N]. pose proof (named_found _ _ _ _ N I) as F.
    unfold demo_getter, node_of, typed. rewrite F. reflexivity.
  - intros k n st _. unfold demo_walks. apply with_kind_of.
Qed.

(** C90: the text that is written for walking holds a struct with the callbacks of all types, the method Walk that sends each node to its walk function, and the walk functions. *)
Theorem C90_walker : forall camel rand g tm, make_types camel rand g = COk tm -> names_fit camel tm = true ->
  exists w ts ws, go_walker (bs (walker_text (walked_types camel tm) (walks camel tm))) w /\ wk_name w = bs "WalkerOps" /\
    Permutation ts (walked_types camel tm) /\ wk_fields w = callbacks ts /\ dispatches (walked_types camel tm) (wk_switch w) /\
    Permutation ws (walks camel tm) /\ Forall2 walk_function ws (wk_funcs w).
Proof.
  intros camel rand g tm M F. exact (walker_text_ok _ _ (walked_once camel rand g tm M) (types_are_words camel tm F) (walks_fit camel tm F)).
Qed.
Print Assumptions C90_walker.
Theorem C90_once : forall b w w', go_walker b w -> go_walker b w' -> w = w'.
Proof. exact go_walker_once. Qed.
Print Assumptions C90_once.
(** What is called is there: Walk calls walk functions that are written. *)
Theorem C90_walk_written : forall camel rand g tm T, make_types camel rand g = COk tm -> (In (T, true) (walked_types camel tm) <-> In T (map fst (walks camel tm))).
Proof. exact walked_written. Qed.
Print Assumptions C90_walk_written.
Example C90_example : make_types to_camel Z.of_nat core_grammar = COk core_types /\ names_fit to_camel core_types = true /\
  In ("TermNode", true) (walked_types to_camel core_types) /\ In ("IdentNode", false) (walked_types to_camel core_types) /\ length (walked_types to_camel core_types) = 20.
Proof. vm_compute. repeat split; tauto. Qed.
(** The walker that is shipped is that of wbnf's own grammar, up to layout. *)
Lemma core_walker_read : exists w ps ps', go_tokens (bs (walker_text (walked_types to_camel core_types) (walks to_camel core_types))) = Some ps /\
  go_tokens (bs (shipped_walker_text ++ shipped_walk_text)) = Some ps' /\ read_walker 100 ps = Some w /\ read_walker 100 ps' = Some w.
Proof.
  exists (match go_tokens (bs (shipped_walker_text ++ shipped_walk_text)) with Some ps => match read_walker 100 ps with Some w => w | None => mkWalker [] [] (mkWSwitch [] [] [] [] [] [] [] [] []) [] end | None => mkWalker [] [] (mkWSwitch [] [] [] [] [] [] [] [] []) [] end).
  exists (match go_tokens (bs (walker_text (walked_types to_camel core_types) (walks to_camel core_types))) with Some ps => ps | None => [] end).
  exists (match go_tokens (bs (shipped_walker_text ++ shipped_walk_text)) with Some ps => ps | None => [] end).
  split; [vm_compute; reflexivity|]. split; [vm_compute; reflexivity|]. split; vm_compute; reflexivity.
Qed.
Theorem C90_shipped : exists w ts ws, go_walker (bs (walker_text (walked_types to_camel core_types) (walks to_camel core_types))) w /\
  go_walker (bs (shipped_walker_text ++ shipped_walk_text)) w /\ Permutation ts (walked_types to_camel core_types) /\ wk_fields w = callbacks ts /\
  dispatches (walked_types to_camel core_types) (wk_switch w) /\ Permutation ws (walks to_camel core_types) /\ Forall2 walk_function ws (wk_funcs w).
Proof.
  destruct C89_example as (M & F & _). destruct (C90_walker _ _ _ _ M F) as (w & ts & ws & S & _ & P & C & D & P' & W).
  destruct core_walker_read as (w' & ps & ps' & T & T' & R & R').
  assert (E : w = w') by (apply (C90_once _ _ _ S); exists ps, 100; exact (conj T R)). subst w'.
  exists w, ts, ws. split; [exact S|]. split; [exists ps', 100; exact (conj T' R')|]. exact (conj P (conj C (conj D (conj P' W)))).
Qed.
Print Assumptions C90_shipped.
