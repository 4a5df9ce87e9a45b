(** The text of the whole walker, read as Go. *)
From Verif Require Import Base Scanner Syntax Resolve Compile Ast WbnfAst Walker Codegen CodegenProofs Types TypesProofs Getters GenText GoText GenTextSpec GenTextProofs NodeStringProofs StackProofs GenCompile
  WalkText GoWalk GoWalkProofs WalkTextSpec WalkTextProofs.
From Coq Require Import Permutation.
Local Open Scope string_scope.
Local Open Scope list_scope.

Definition word (T : string) : Prop := forallb name_char (bs T) = true /\ match bs T with [] => False | c :: _ => name_start c = true end.

(** * Fields *)
Definition field_tokens (t : string * bool) : list piece :=
  let T := bs (fst t) in
  [Name (bs "Enter" ++ T); Name (bs "func"); Mark LPar; Name T; Mark RPar; Name (bs "Stopper"); Mark Semi;
   Name (bs "Exit" ++ T); Name (bs "func"); Mark LPar; Name T; Mark RPar; Name (bs "Stopper"); Mark Semi].
Lemma field_lexes : forall t, word (fst t) -> lexes (Between false) (bs (field_text t ++ newline)%string) (field_tokens t) (Between false).
Proof.
  intros [T b] [H B]. unfold field_text, field_tokens. cbn [fst snd] in *. remember (bs T) as w eqn:Ew. rewrite ?bs_app, <- ?app_assoc, <- ?Ew.
  match goal with |- lexes _ ?x ?q _ => assert (E : exists q', lexes (Between false) x q' (Between false) /\ q' = q) end.
  { eexists. split; [lex|]. vm_compute. reflexivity. }
  destruct E as (q' & E & <-). exact E.
Qed.
Lemma fields_read : forall ts r, read_fields (flat_map field_tokens ts ++ Mark RBrace :: r) = Some (callbacks ts, r).
Proof.
  induction ts as [|[T b] ts IH]; intros r; [reflexivity|]. cbn [flat_map field_tokens app read_fields fst]. change (is "func" (bs "func")) with true. cbn iota. rewrite IH.
  unfold callbacks. cbn [flat_map app fst]. rewrite !bs_app. reflexivity.
Qed.
Lemma joined_lexes : forall A (text : A -> string) toks l, (forall x, In x l -> lexes (Between false) (bs (text x ++ newline)%string) (toks x) (Between false)) ->
  lexes (Between false) (bs (join_lines (map text l) ++ newline)%string) (flat_map toks l) (Between false).
Proof.
  intros A text toks. induction l as [|x l IH]; intros H; [reflexivity|]. destruct l as [|y l].
  - cbn [map join_lines flat_map]. rewrite app_nil_r. exact (H x (or_introl eq_refl)).
  - change (join_lines (map text (x :: y :: l))) with (text x ++ newline ++ join_lines (map text (y :: l)))%string.
    rewrite app_assoc_s, <- app_assoc_s, bs_app. change (flat_map toks (x :: y :: l)) with (toks x ++ flat_map toks (y :: l)).
    apply (lexes_app _ _ _ _ _ _ _ (H x (or_introl eq_refl))). apply IH. intros z I. apply H. now right.
Qed.

(** * Cases *)
Definition case_stmt (t : string * bool) : wstmt :=
  let T := bs (fst t) in
  if snd t then WReturn (EApply (EDot (nm "w") (bs "Walk" ++ T)) [nm "node"])
  else WIf (Some (bs "fn", EDot (nm "w") (bs "Enter" ++ T))) (not_nil "fn") [WReturn (EApply (nm "fn") [nm "node"])] [].
Definition case_tokens (t : string * bool) : list piece :=
  let T := bs (fst t) in
  [Name (bs "case"); Name T; Mark Colon] ++
  (if snd t then [Name (bs "return"); Name (bs "w"); Mark Dot; Name (bs "Walk" ++ T); Mark LPar; Name (bs "node"); Mark RPar]
   else [Name (bs "if"); Name (bs "fn"); Mark Defines; Name (bs "w"); Mark Dot; Name (bs "Enter" ++ T); Mark Semi; Name (bs "fn"); Mark Differs; Name (bs "nil"); Mark LBrace;
         Name (bs "return"); Name (bs "fn"); Mark LPar; Name (bs "node"); Mark RPar; Mark RBrace]) ++ [Mark Semi].
Lemma case_lexes : forall t, word (fst t) -> lexes (Between false) (bs (case_text t ++ newline)%string) (case_tokens t) (Between false).
Proof.
  intros [T b] [H B]. unfold case_text, case_tokens. cbn [fst snd] in *. remember (bs T) as w eqn:Ew. destruct b; rewrite ?bs_app, <- ?app_assoc, <- ?Ew.
  - match goal with |- lexes _ ?x ?q _ => assert (E : exists q', lexes (Between false) x q' (Between false) /\ q' = q) end.
    { eexists. split; [lex|]. vm_compute. reflexivity. }
    destruct E as (q' & E & <-). exact E.
  - match goal with |- lexes _ ?x ?q _ => assert (E : exists q', lexes (Between false) x q' (Between false) /\ q' = q) end.
    { eexists. split; [lex|]. vm_compute. reflexivity. }
    destruct E as (q' & E & <-). exact E.
Qed.
Lemma case_reads : forall t k rest, exists q, case_tokens t = Name (bs "case") :: Name (bs (fst t)) :: Mark Colon :: q /\ read_w (40 + k) (q ++ rest) = Some (case_stmt t, Mark Semi :: rest).
Proof.
  intros [T b] k rest. eexists. split; [reflexivity|]. unfold case_stmt. cbn [fst snd]. generalize (bs T). intros w. destruct b; vm_compute; reflexivity.
Qed.
Lemma cases_read : forall ts k r, read_cases (length ts + (40 + k)) (flat_map case_tokens ts ++ Mark RBrace :: r) = Some (map (fun t => (bs (fst t), case_stmt t)) ts, r).
Proof.
  induction ts as [|t ts IH]; intros k r; [reflexivity|]. cbn [flat_map]. rewrite <- app_assoc.
  destruct (case_reads t (length ts + k) (flat_map case_tokens ts ++ Mark RBrace :: r)) as (q & -> & R).
  replace (40 + (length ts + k)) with (length ts + (40 + k)) in R by lia. change (length (t :: ts) + (40 + k)) with (S (length ts + (40 + k))).
  set (g := length ts + (40 + k)) in *. cbn [app read_cases]. change (is "case" (bs "case")) with true. cbn iota.
  rewrite R. unfold g. rewrite IH. reflexivity.
Qed.

Definition switch_of (ts : list (string * bool)) : wswitch :=
  mkWSwitch (bs "w") (bs "WalkerOps") (bs "Walk") (bs "tree") (bs "IsWalkableType") (bs "Stopper") (bs "node") (map (fun t => (bs (fst t), case_stmt t)) ts) [WReturn (nm "nil")].
Lemma case_of_in : forall ts T b, NoDup (map fst ts) -> In (T, b) ts -> case_of (bs T) (map (fun t => (bs (fst t), case_stmt t)) ts) = Some (case_stmt (T, b)).
Proof.
  induction ts as [|[T' b'] ts IH]; intros T b N I; [contradiction|]. cbn [map case_of fst] in *. inversion N as [|? ? N1 N2]; subst.
  destruct I as [I|I]; [inversion I; subst; now rewrite beqb_refl|]. destruct (beqb (bs T) (bs T')) eqn:E; [|exact (IH T b N2 I)].
  apply beqb_eq, bs_inj in E. subst T'. destruct N1. exact (in_map fst _ _ I).
Qed.
Lemma case_of_out : forall ts T, ~ In T (map fst ts) -> case_of (bs T) (map (fun t => (bs (fst t), case_stmt t)) ts) = None.
Proof.
  induction ts as [|[T' b'] ts IH]; intros T N; [reflexivity|]. cbn [map case_of fst] in *. destruct (beqb (bs T) (bs T')) eqn:E; [|apply IH; intros I; apply N; now right].
  apply beqb_eq, bs_inj in E. destruct N. now left.
Qed.
Lemma switch_dispatches : forall ts ts', NoDup (map fst ts) -> Permutation ts' ts -> dispatches ts (switch_of ts').
Proof.
  intros ts ts' N P. assert (N' : NoDup (map fst ts')) by (exact (Permutation_NoDup (Permutation_sym (Permutation_map fst P)) N)).
  split; [reflexivity|]. split; [reflexivity|]. split; [reflexivity|]. split; [reflexivity|]. split.
  { cbn [switch_of ws_cases]. rewrite map_map. cbn [fst]. rewrite <- (map_map fst bs). apply FinFun.Injective_map_NoDup; [exact bs_inj|exact N']. }
  intros St hooks walks getter T v st.
  unfold call_switch. cbn [switch_of ws_cases ws_param ws_self ws_var ws_rest]. split; [|split].
  - intros I. rewrite (case_of_in ts' T true N' (Permutation_in _ (Permutation_sym P) I)). unfold case_stmt. cbn [fst snd]. rewrite bs_app. generalize (bs T). intros w. cbv.
    match goal with |- _ = ?r => destruct r as [[[s|] st']| |] eqn:E end; rewrite ?E; reflexivity.
  - intros I. rewrite (case_of_in ts' T false N' (Permutation_in _ (Permutation_sym P) I)). unfold case_stmt, callback. cbn [fst snd]. rewrite bs_app. generalize (bs T). intros w. cbv.
    match goal with |- context [hooks ?a] => destruct (hooks a) as [h|] eqn:E end; [|reflexivity]. cbv. rewrite ?E.
    match goal with |- context [h ?c st] => destruct (h c st) as [[[s|] st']| |] end; reflexivity.
  - intros I. rewrite case_of_out; [reflexivity|]. intros J. apply I. exact (Permutation_in _ (Permutation_map fst P) J).
Qed.

(** * The walker *)
Lemma front_text : lexes (Between false) (bs (newline ++ "type WalkerOps struct {" ++ newline)%string) [Name (bs "type"); Name (bs "WalkerOps"); Name (bs "struct"); Mark LBrace] (Between false).
Proof. vm_compute. reflexivity. Qed.
Lemma close_text : lexes (Between false) (bs ("}" ++ newline)%string) [Mark RBrace; Mark Semi] (Between false).
Proof. vm_compute. reflexivity. Qed.
Definition switch_front : list piece :=
  [Name (bs "func"); Mark LPar; Name (bs "w"); Name (bs "WalkerOps"); Mark RPar; Name (bs "Walk"); Mark LPar; Name (bs "tree"); Name (bs "IsWalkableType"); Mark RPar; Name (bs "Stopper"); Mark LBrace;
   Name (bs "switch"); Name (bs "node"); Mark Defines; Name (bs "tree"); Mark Dot; Mark LPar; Name (bs "type"); Mark RPar; Mark LBrace].
Lemma switch_text : lexes (Between false) (bs (newline ++ "func (w WalkerOps) Walk(tree IsWalkableType) Stopper {" ++ newline ++ tab ++ "switch node := tree.(type) {" ++ newline)%string) switch_front (Between false).
Proof. vm_compute. reflexivity. Qed.
Definition switch_back : list piece := [Mark RBrace; Mark Semi; Name (bs "return"); Name (bs "nil"); Mark Semi; Mark RBrace; Mark Semi].
Lemma end_text : lexes (Between false) (bs ("}" ++ newline ++ "return nil" ++ newline ++ "}" ++ newline)%string) switch_back (Between false).
Proof. vm_compute. reflexivity. Qed.
Lemma end_reads : forall j rest, read_ws (10 + j) (Mark Semi :: Name (bs "return") :: Name (bs "nil") :: Mark Semi :: Mark RBrace :: Mark Semi :: rest) = Some ([WReturn (nm "nil")], Mark Semi :: rest).
Proof. intros j rest. vm_compute. reflexivity. Qed.
Lemma switch_reads : forall ts j rest, read_switch (length ts + (40 + j)) (switch_front ++ flat_map case_tokens ts ++ switch_back ++ rest) = Some (switch_of ts, Mark Semi :: rest).
Proof.
  intros ts j rest. unfold switch_front, switch_back. cbn [app read_switch].
  change (is "func" (bs "func") && is "switch" (bs "switch") && beqb (bs "tree") (bs "tree") && is "type" (bs "type"))%bool with true. cbn iota.
  rewrite cases_read. replace (length ts + (40 + j)) with (10 + (length ts + (30 + j))) by lia. rewrite end_reads. reflexivity.
Qed.
Lemma walker_reads : forall f ts ts' fs rest ds, length ts' + 40 <= f -> fs = callbacks ts -> read_funcs f rest = Some ds ->
  read_walker f ([Name (bs "type"); Name (bs "WalkerOps"); Name (bs "struct"); Mark LBrace] ++ flat_map field_tokens ts ++ [Mark RBrace; Mark Semi] ++ switch_front ++ flat_map case_tokens ts' ++ switch_back ++ rest) =
  Some (mkWalker (bs "WalkerOps") fs (switch_of ts') ds).
Proof.
  intros f ts ts' fs rest ds L -> R. remember (switch_front ++ flat_map case_tokens ts' ++ switch_back ++ rest) as q eqn:Eq.
  cbn [app]. unfold read_walker. change (is "type" (bs "type") && is "struct" (bs "struct"))%bool with true. cbn iota.
  rewrite fields_read. rewrite Eq. pose proof (switch_reads ts' (f - length ts' - 40) rest) as W. replace (length ts' + (40 + (f - length ts' - 40))) with f in W by lia.
  rewrite W, R. reflexivity.
Qed.
Lemma walks_text_held : forall ws, Forall walk_fits ws -> exists ws' ds, Permutation ws' ws /\ holds_funcs (walks_text ws) ds /\ Forall2 walk_function ws' ds.
Proof.
  intros ws F. unfold walks_text. destruct (Permutation_map_inv _ _ (sort_perm (map walk_text ws))) as (ws' & E & P).
  exists ws', (map func_of ws'). split; [exact (Permutation_sym P)|]. rewrite E. assert (F' : Forall walk_fits ws') by (exact (Permutation_Forall P F)).
  split; [exact (joined_funcs ws' F')|]. clear. induction ws' as [|w l IH]; constructor; [apply func_of_walks|exact IH].
Qed.
Lemma walker_text_ok : forall ts ws, NoDup (map fst ts) -> Forall (fun t => word (fst t)) ts -> Forall walk_fits ws ->
  exists w ts' ws', go_walker (bs (walker_text ts ws)) w /\ wk_name w = bs "WalkerOps" /\ Permutation ts' ts /\ wk_fields w = callbacks ts' /\ dispatches ts (wk_switch w) /\
    Permutation ws' ws /\ Forall2 walk_function ws' (wk_funcs w).
Proof.
  intros ts ws N F G. unfold walker_text.
  destruct (Permutation_map_inv _ _ (sort_perm (map field_text ts))) as (t1 & E1 & P1).
  destruct (Permutation_map_inv _ _ (sort_perm (map case_text ts))) as (t2 & E2 & P2). rewrite E1, E2. clear E1 E2.
  destruct (walks_text_held ws G) as (ws' & ds & P & (ps & M & L & R) & D).
  assert (F1 : forall x, In x t1 -> lexes (Between false) (bs (field_text x ++ newline)%string) (field_tokens x) (Between false)).
  { intros x I. apply field_lexes. rewrite Forall_forall in F. exact (F x (Permutation_in _ (Permutation_sym P1) I)). }
  assert (F2 : forall x, In x t2 -> lexes (Between false) (bs (case_text x ++ newline)%string) (case_tokens x) (Between false)).
  { intros x I. apply case_lexes. rewrite Forall_forall in F. exact (F x (Permutation_in _ (Permutation_sym P2) I)). }
  pose proof (joined_lexes _ _ _ t1 F1) as L1. pose proof (joined_lexes _ _ _ t2 F2) as L2.
  pose proof (lexes_app _ _ _ _ _ _ _ front_text (lexes_app _ _ _ _ _ _ _ L1 (lexes_app _ _ _ _ _ _ _ close_text
    (lexes_app _ _ _ _ _ _ _ switch_text (lexes_app _ _ _ _ _ _ _ L2 (lexes_app _ _ _ _ _ _ _ end_text L)))))) as LL.
  rewrite <- !bs_app in LL. rewrite <- !app_assoc_s in LL.
  exists (mkWalker (bs "WalkerOps") (callbacks t1) (switch_of t2) ds), t1, ws'. cbn [wk_name wk_fields wk_switch wk_funcs].
  split; [|split; [reflexivity|split; [exact (Permutation_sym P1)|split; [reflexivity|split; [exact (switch_dispatches ts t2 N (Permutation_sym P2))|split; [exact P|exact D]]]]]].
  eexists _, (length ds + (S M + (length t2 + 40))). split.
  - unfold go_tokens. pose proof (lexes_app _ [nl] _ _ _ [] (Between false) LL eq_refl) as E. unfold lexes in E. rewrite <- !app_assoc_s. rewrite E. rewrite app_nil_r. reflexivity.
  - apply walker_reads; [lia|reflexivity|]. specialize (R (S M + (length t2 + 40)) [] [] ltac:(lia) eq_refl). now rewrite !app_nil_r in R.
Qed.
Lemma types_are_words : forall camel tm, names_fit camel tm = true -> Forall (fun t => word (fst t)) (walked_types camel tm).
Proof.
  intros camel tm F. unfold names_fit in F. rewrite forallb_forall in F. apply Forall_forall. intros t I. unfold walked_types in I. apply in_map_iff in I as ([k g] & <- & I).
  specialize (F _ I). cbn [snd] in *. destruct g as [n|n cs]; cbn [type_fits fst] in *.
  - exact (spelled_node _ F).
  - apply andb_true_iff in F as [F _]. exact (spelled_node _ F).
Qed.

(** No type has two cases. *)
Lemma types_keys : forall camel rand g tm, make_types camel rand g = COk tm -> NoDup (keys tm).
Proof.
  intros camel rand g tm M. unfold make_types in M. destruct (walk_rules _ _ _ _ _ _ _) as [st| |] eqn:W; try discriminate. cbn [cbind] in M. inversion M; subst.
  assert (A : forall p c tm, at_home p c -> NoDup (keys tm) -> NoDup (keys (add_child camel p c tm))) by (intros p c tm _ N; unfold add_child; now apply NoDup_aset).
  refine (keeps_rules camel rand (fun tm => NoDup (keys tm)) A g _ _ _ _ _ W (NoDup_nil _)). apply Forall_forall. intros kv _. apply (walk_keeps camel rand (fun tm => NoDup (keys tm)) A).
Qed.
Lemma walked_once : forall camel rand g tm, make_types camel rand g = COk tm -> NoDup (map fst (walked_types camel tm)).
Proof.
  intros camel rand g tm M. pose proof (types_keys _ _ _ _ M) as N. pose proof (types_homed _ _ _ _ M) as H.
  assert (E : map fst (walked_types camel tm) = keys tm); [|rewrite E; exact N].
  unfold walked_types, keys. rewrite map_map. apply map_ext_in. intros [k ty] I. destruct (H k ty (In_lookup _ _ _ N I)) as (K & T & _). cbn [snd fst].
  destruct ty as [n|n cs]; subst n; exact K.
Qed.
Lemma walked_written : forall camel rand g tm T, make_types camel rand g = COk tm -> (In (T, true) (walked_types camel tm) <-> In T (map fst (walks camel tm))).
Proof.
  intros camel rand g tm T M. pose proof (types_keys _ _ _ _ M) as N. unfold walked_types, walks. split.
  - intros I. apply in_map_iff in I as ([k ty] & E & I). cbn [snd] in E. destruct ty as [n|n [|c cs]]; inversion E; subst. clear E.
    apply in_map_iff. eexists (_, _). split; [reflexivity|]. apply in_flat_map. exists k. split.
    + apply (Permutation_in _ (Permutation_sym (sort_perm _))). exact (in_map fst _ _ I).
    + rewrite (In_lookup _ _ _ N I). now left.
  - intros I. apply in_map_iff in I as (w & <- & I). apply in_flat_map in I as (k & _ & I). destruct (lookup k tm) as [[n|n [|c cs]]|] eqn:E; try contradiction.
    destruct I as [<-|[]]. apply in_map_iff. exists (k, GRule n (c :: cs)). split; [reflexivity|exact (lookup_In _ _ _ E)].
Qed.
