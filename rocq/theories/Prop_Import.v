(** Property C54: imports. *)
From Verif Require Import Base Scanner Syntax Engine Resolve Compile Parse Ast AstProofs WbnfAst Walker WalkerSpec WalkerProofs Build Recursion Validate
  Front FrontSpec FrontProofs FrontDemo ImportSpec ImportProofs.

(** C54: the statements of a loaded text are its own followed by those of the files it imports, in order, and so on ... *)
Theorem C54_statements : forall w wbnf depth fuel txt n, load_text w wbnf depth fuel txt = COk (inr n) ->
  contents w wbnf fuel (fun _ => True) "" txt (statements n).
Proof. intros w wbnf depth fuel. exact (text_contents w wbnf fuel depth). Qed.
Print Assumptions C54_statements.
(** ... which are definite ... *)
Theorem C54_unique : forall w wbnf fuel good from txt ss, contents w wbnf fuel good from txt ss -> forall ss', contents w wbnf fuel good from txt ss' -> ss' = ss.
Proof. exact contents_det. Qed.
Print Assumptions C54_unique.
(** ... and they are loaded whenever all files can be read and parsed and are not cyclic. *)
Theorem C54_loads : forall w wbnf fuel txt ss, contents w wbnf fuel (sound fuel) "" txt ss ->
  exists d0, forall d, d0 <= d -> exists n, load_text w wbnf d fuel txt = COk (inr n) /\ statements n = ss.
Proof. exact contents_load. Qed.
Print Assumptions C54_loads.

(** A text with cyclic imports is never loaded, nor does it give an error: whatever else is wrong with the files, there is no result. *)
Theorem C54_cycles_have_no_result : forall w wbnf fuel depth txt p r, needs w wbnf fuel txt p -> route w wbnf fuel p p ->
  load_text w wbnf depth fuel txt <> COk r.
Proof. intros w wbnf fuel. exact (cycles_never_load w wbnf fuel). Qed.
Print Assumptions C54_cycles_have_no_result.

Definition shelf : list (string * string) :=
  [("b", ".import d; b -> d;"); ("c", ".import d; c -> d 'y';"); ("d", "d -> 'x';"); ("e", ".import e; e -> 'x';")]%string.
Definition tree_of (f : nat) (from x : string) : anode := match parse_text (desk shelf) wbnf_front f from (bs x) with COk (inr n) => n | _ => ABranch [] end.
Fixpoint import_list (fuel : nat) (k : kind) (n : anode) : list anode :=
  match fuel with
  | O => []
  | S fuel => match k with KPragmaImport => [n] | _ => flat_map (fun kn : kind * anode => import_list fuel (fst kn) (snd kn)) (visited k n) end
  end.
Lemma import_list_ok : forall fuel k n evs, height n < fuel -> tour (fun _ _ => false) k n evs -> import_list fuel k n = import_events evs.
Proof.
  induction fuel as [|fuel IH]; intros k n evs L T; [lia|]. cbn [import_list].
  assert (Q : forall l evs, (forall k' m, In (k', m) l -> height m < fuel) -> tours (fun _ _ => false) l evs ->
    flat_map (fun kn : kind * anode => import_list fuel (fst kn) (snd kn)) l = import_events evs).
  { induction l as [|[k' m] l IHl]; intros evs0 B T0; inversion T0; subst; auto. cbn [flat_map fst snd]. rewrite import_events_app. f_equal.
    - apply IH; auto. apply (B k'). now left.
    - apply IHl; auto. intros. eapply B. right. eauto. }
  assert (V : forall k' m, In (k', m) (visited k n) -> height m < fuel) by (intros k' m H; apply visited_below in H; lia).
  inversion T as [? ? TK|? ? TK SK|? ? evs' TK SK TS]; subst; [|discriminate|].
  - rewrite <- leaf_token in TK. destruct k; try discriminate; reflexivity.
  - pose proof TS as TS'. rewrite expected_visited in TS'. specialize (Q _ _ V TS').
    change (import_events (Enter k n :: evs' ++ [Exit k n])) with ((match k with KPragmaImport => [n] | _ => [] end) ++ import_events (evs' ++ [Exit k n])).
    rewrite import_events_app. change (import_events [Exit k n]) with (@nil anode). rewrite app_nil_r.
    destruct k; try exact Q. rewrite (under_import _ _ TS). reflexivity.
Qed.
Lemma nodes_b : forall f n, Nat.ltb (height n) f = true -> import_nodes n (import_list f KGrammar n).
Proof.
  intros f n H. apply Nat.ltb_lt in H. destruct (tour_any n KGrammar) as [evs T]. exists evs. split; auto. apply import_list_ok; auto.
Qed.
Definition file_name (m : anode) : string := match one "path" m with Some p => match all_tokens p with COk l => join_path l | _ => "" end | None => "" end.
Definition has_name (m : anode) : bool := match one "path" m with Some p => match all_tokens p with COk l => true | _ => false end | None => false end.
Lemma names_b : forall from ms, forallb has_name ms = true -> Forall2 (names_file (desk shelf) from) ms (map file_name ms).
Proof.
  intros from. induction ms as [|m ms IH]; intros H; simpl; constructor.
  - apply names_file_spec. cbn [forallb] in H. apply andb_prop in H as [H _]. unfold has_name, file_name in *. destruct (one "path" m) as [p|] eqn:P; [|discriminate].
    destruct (all_tokens p) as [l| |] eqn:A; try discriminate. exists p, l. auto.
  - apply IH. cbn [forallb] in H. apply andb_prop in H as [_ H]. auto.
Qed.
Definition check (f : nat) (from x : string) : option (list string) :=
  match parse_text (desk shelf) wbnf_front f from (bs x) with
  | COk (inr n) => if Nat.ltb (height n) f then if forallb has_name (import_list f KGrammar n) then
      match n with ABranch b => match lookup "stmt"%string b with Some (Many _) => Some (map file_name (import_list f KGrammar n)) | _ => None end | _ => None end
      else None else None
  | _ => None
  end.
Lemma check_inv : forall f from x ps, check f from x = Some ps -> exists n b l, parse_text (desk shelf) wbnf_front f from (bs x) = COk (inr n) /\
  Nat.ltb (height n) f = true /\ forallb has_name (import_list f KGrammar n) = true /\ n = ABranch b /\ lookup "stmt"%string b = Some (Many l) /\
  ps = map file_name (import_list f KGrammar n).
Proof.
  intros f from x ps H. unfold check in H. destruct (parse_text (desk shelf) wbnf_front f from (bs x)) as [[e|n]| |]; try discriminate.
  destruct (Nat.ltb (height n) f) eqn:HT; [|discriminate]. destruct (forallb has_name (import_list f KGrammar n)) eqn:HN; [|discriminate].
  destruct n as [b| |]; try discriminate. destruct (lookup "stmt" b) as [[|l]|] eqn:L; try discriminate. injection H as <-. exists (ABranch b), b, l. auto 10.
Qed.
Lemma check_ok : forall f from x ps, check f from x = Some ps ->
  reads (desk shelf) wbnf_front f from (bs x) (tree_of f from x) /\ sound f (tree_of f from x) /\ imports (desk shelf) from (tree_of f from x) ps.
Proof.
  intros f from x ps H. apply check_inv in H as (n & b & l & P & HT & HN & E & L & ->). unfold tree_of, reads. rewrite P. split; auto. split.
  - split; [apply Nat.ltb_lt; auto|eauto].
  - eexists. split; [apply nodes_b; eauto|]. apply names_b. auto.
Qed.

(** A file that imports itself, and a text that imports it. *)
Lemma self_import : forall f, check f "e" ".import e; e -> 'x';" = Some ["e"%string] -> forall x, check f "" x = Some ["e"%string] ->
  forall depth, load_text (desk shelf) wbnf_front depth f (bs x) = CDiv.
Proof.
  intros f CE.
  assert (M : forall depth, load_grammar_file (desk shelf) wbnf_front depth f "e" [] = CDiv -> forall from x, check f from x = Some ["e"%string] ->
    make_grammar (desk shelf) wbnf_front (load_grammar_file (desk shelf) wbnf_front depth f) f from (bs x) [] = CDiv).
  { intros depth L from x C. apply check_inv in C as (n & b & l & P & HT & HN & _ & _ & E). rewrite make_eq, P. cbn [cbind]. apply Nat.ltb_lt in HT.
    destruct (tour_any n KGrammar) as [evs T]. rewrite (walk_imports _ (act_is_soft _ _ _) _ _ _ _ _ HT T).
    rewrite (import_list_ok _ _ _ _ HT T) in *. destruct (import_events evs) as [|m [|m' ms]]; cbn [map] in E; try discriminate. cbn [forallb] in HN. rewrite andb_true_r in HN.
    injection E as E. cbn [act_all]. rewrite act_eq. unfold has_name, file_name in *. destruct (one "path" m) as [p|]; [|discriminate]. cbn [deref cbind].
    destruct (all_tokens p) as [toks| |]; try discriminate. cbn [cbind]. unfold resolved. cbn [w_resolve w_join desk l_imports]. rewrite <- E, L. reflexivity. }
  assert (E : forall depth, load_grammar_file (desk shelf) wbnf_front depth f "e" [] = CDiv).
  { induction depth as [|depth IH]; [reflexivity|]. rewrite load_eq. cbn [w_clean desk lookup].
    replace (w_read (desk shelf) "e") with (Some (bs ".import e; e -> 'x';")) by reflexivity. now rewrite (M depth IH "e"%string). }
  intros x C depth. unfold load_text. now rewrite (M depth (E depth) ""%string).
Qed.

(** Expected is an error for a file that imports itself.  Instead loading it never ends ([CDiv] for every depth; in Go
    the stack overflows) ... *)
Theorem C54_cycle_refuted : forall depth, load_text (desk shelf) wbnf_front depth 300 (bs "a -> 'x'; .import e;") = CDiv.
Proof. apply self_import; vm_compute; reflexivity. Qed.
Print Assumptions C54_cycle_refuted.
(** ... and a missing file does not keep the rest of the imports from being loaded, here without end. *)
Theorem C54_missing_refuted : w_read (desk shelf) "q" = None /\ needs (desk shelf) wbnf_front 300 (bs ".import q; .import e;") "q" /\
  forall depth r, load_text (desk shelf) wbnf_front depth 300 (bs ".import q; .import e;") <> COk r.
Proof.
  destruct (check_ok 300 "" ".import q; .import e;" ["q"; "e"]%string ltac:(vm_compute; reflexivity)) as (R & _ & I). split; [reflexivity|]. split.
  - eapply needs_now; eauto. now left.
  - intros depth r. apply (C54_cycles_have_no_result _ _ _ _ _ "e"); [eapply needs_now; eauto; right; now left|].
    destruct (check_ok 300 "e" ".import e; e -> 'x';" ["e"%string] ltac:(vm_compute; reflexivity)) as (R' & _ & I').
    constructor. exists (bs ".import e; e -> 'x';"), (tree_of 300 "e" ".import e; e -> 'x';"), ["e"%string]. split; [reflexivity|]. split; auto. split; auto. now left.
Qed.
Print Assumptions C54_missing_refuted.
(** Expected is that a file needed twice is used once.  Instead its rules are duplicates. *)
Theorem C54_diamond_refuted : forall rt, build_text (with_runtime rt (desk shelf)) wbnf_front 9 300 (bs ".import b; .import c; a -> b c;") = COk (inl (Invalid [DuplicatedRule])).
Proof. intros rt. vm_compute. reflexivity. Qed.
Print Assumptions C54_diamond_refuted.
(** Expected is that an import in a nested grammar adds rules to this grammar.  Instead it adds them to the whole one. *)
Theorem C54_nested_refuted : forall rt, build_text (with_runtime rt (desk shelf)) wbnf_front 9 300 (bs "a -> b { .import d; b -> d; }; d -> 'z';") = COk (inl (Invalid [DuplicatedRule])).
Proof. intros rt. vm_compute. reflexivity. Qed.
Print Assumptions C54_nested_refuted.

(** Example: a text, a file it imports and one imported by that. *)
Example C54_example : exists ss, contents (desk shelf) wbnf_front 300 (sound 300) "" (bs "a -> b; .import b;") ss /\ length ss = 5 /\
  exists n, load_text (desk shelf) wbnf_front 9 300 (bs "a -> b; .import b;") = COk (inr n) /\ length (statements n) = 5.
Proof.
  destruct (check_ok 300 "d" "d -> 'x';" [] ltac:(vm_compute; reflexivity)) as (R1 & S1 & I1).
  destruct (check_ok 300 "b" ".import d; b -> d;" ["d"%string] ltac:(vm_compute; reflexivity)) as (R2 & S2 & I2).
  destruct (check_ok 300 "" "a -> b; .import b;" ["b"%string] ltac:(vm_compute; reflexivity)) as (R3 & S3 & I3).
  eexists. split.
  - eapply contents_of; [exact R3|exact S3|exact I3|]. eapply contents_cons; [reflexivity| |apply contents_nil].
    eapply contents_of; [exact R2|exact S2|exact I2|]. eapply contents_cons; [reflexivity| |apply contents_nil].
    eapply contents_of; [exact R1|exact S1|exact I1|]. apply contents_nil.
  - split; [vm_compute; reflexivity|]. eexists. split; vm_compute; reflexivity.
Qed.
