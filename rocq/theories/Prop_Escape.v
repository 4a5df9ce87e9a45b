(** C72, C73: externals and escapes. *)
From Verif Require Import Base Scanner Syntax Engine Resolve Compile Parse Regex RegexProofs FlowSpec FlowProofs Externals Demo ScannerSpec EscapeSpec EscapeProofs.
Local Open Scope list_scope.

(** * C72 *)

(** A parse with externals uses the escape that their names give. *)
Theorem C72_escape : forall E rnd exts esc f ps r s, gives E exts esc ->
  parse_with_externals E rnd exts f ps r s = parse_rule (mkConfig E exts esc rnd) f ps r s.
Proof. exact parse_with_externals_gives. Qed.
Print Assumptions C72_escape.
(** It panics just when they give none: two names with a star, a name without "()", or a pattern that is not valid. *)
Theorem C72_panics : forall E rnd exts f ps r s, (forall esc, ~ gives E exts esc) -> parse_with_externals E rnd exts f ps r s = (RPanic, s).
Proof. exact parse_with_externals_panics. Qed.
Print Assumptions C72_panics.
(** The order of the map has no influence. *)
Theorem C72_order : forall E rnd exts exts' f ps r s, NoDup (keys exts) -> Permutation exts exts' ->
  parse_with_externals E rnd exts f ps r s = parse_with_externals E rnd exts' f ps r s.
Proof. exact parse_with_externals_order. Qed.
Print Assumptions C72_order.

(** An external that reads a word. *)
Definition word (_ : scope) (s : scanner) : scanner * extres :=
  match eat_token regex_engine (anchor ++ group (bs "[a-z]+")) s with
  | TokOk leaf rest => (rest, XOk (Leaf leaf))
  | _ => (s, XErr EOther)
  end.
Definition exts : list (string * extfn) := [("w", word); ("*{:():}", word)]%string.
Definition braces : escape := mkEscape (anchor ++ bs "{:") (anchor ++ bs ":}") word.
Lemma plain_small : forall x, forallb (fun c => negb (Ascii.eqb c "(")) x = true -> plain x.
Proof.
  intros x H a b ->. rewrite forallb_app in H. apply andb_true_iff in H. destruct H as [_ H]. discriminate.
Qed.
Lemma exts_give : gives regex_engine exts (Some braces).
Proof.
  exists [("w"%string, word)], "*{:():}"%string, [], (bs "{:"), (bs ":}"). split; [reflexivity|]. split.
  - intros m fn [H|[]]. inversion H; subst. intros [r R]. discriminate.
  - split; [|vm_compute; auto]. exists []. split; [reflexivity|]. split; [apply plain_small; reflexivity|]. split; [apply plain_small; reflexivity|auto].
Qed.
Example C72_example : gives regex_engine exts (Some braces) /\ NoDup (keys exts) /\
  leaf_strings (parse_with_externals regex_engine seqno exts 50 (parsers_of sums) "e" (text "1+{:x:}")) = Some ["1"; "+"; "x"]%string /\
  forall esc, ~ gives regex_engine [("*{:", word)]%string esc.
Proof.
  split; [exact exts_give|]. split; [apply NoDup_cons; [intros [H|[]]; discriminate|apply NoDup_cons; [intros []|apply NoDup_nil]]|].
  split; [vm_compute; reflexivity|]. intros esc G. apply find_escape_gives in G. discriminate.
Qed.

(** Expected: what follows the first "()" is the closing pattern.  It is cut at the next "()", and the rest is dropped. *)
Theorem C72_rest_refuted : exists n o c e, bs n = "*"%char :: o ++ bs "()" ++ c /\ plain o /\
  re_valid regex_engine (anchor ++ o) = true /\ re_valid regex_engine (anchor ++ c) = true /\
  gives regex_engine [(n, word)] (Some e) /\ esc_close e <> anchor ++ c.
Proof.
  exists "*<()()>"%string, (bs "<"), (bs "()>"), (mkEscape (anchor ++ bs "<") anchor word).
  split; [reflexivity|]. split; [apply plain_small; reflexivity|]. split; [vm_compute; reflexivity|]. split; [vm_compute; reflexivity|].
  split; [|discriminate]. apply find_escape_gives. vm_compute. reflexivity.
Qed.
Print Assumptions C72_rest_refuted.

(** * C73 *)

(** Where the opening pattern matches, whatever is to be read there, the answer is what comes of the escape. *)
Theorem C73_takes_over : forall c e, tame c -> cf_esc c = Some e -> forall f env p sc s k r s' k', in_range s -> opens (cf_eng c) e s ->
  parse c f env p sc s k = (r, s', k') -> r <> RPanic -> r <> RFuel -> escaped (cf_eng c) e sc s r s' /\ k' = k.
Proof. exact escape_takes_over. Qed.
Print Assumptions C73_takes_over.
(** ... and there is an answer, unless it is a reference that has to be followed first. *)
Theorem C73_answers : forall c e, tame c -> cf_esc c = Some e -> forall f env p sc s k r s', in_range s ->
  escaped (cf_eng c) e sc s r s' ->
  match p with PRule _ _ | PLink _ | PScoped _ _ | PCut _ => True | _ => parse c (S f) env p sc s k = (r, s', k) end.
Proof. exact escape_answers. Qed.
Print Assumptions C73_answers.
(** At the beginning of the input the escape stands for the whole rule. *)
Theorem C73_whole_rule : forall c e f ps rule s r s', tame c -> cf_esc c = Some e -> in_range s -> opens (cf_eng c) e s ->
  parse_rule c f ps rule s = (r, s') -> r <> RPanic -> r <> RFuel ->
  match r with
  | ROk t => escaped (cf_eng c) e empty_scope s (ROk t) s' /\ shows s' []
  | RErr (EUnconsumed rest t) => rest = s' /\ ~ shows s' [] /\ escaped (cf_eng c) e empty_scope s (ROk t) s'
  | _ => escaped (cf_eng c) e empty_scope s r s'
  end.
Proof. exact escape_whole_rule. Qed.
Print Assumptions C73_whole_rule.
(** Where the opening pattern matches nowhere, the escape makes no difference. *)
Theorem C73_no_opening : forall c e f ps r s, tame c -> cf_esc c = Some e -> in_range s -> never_opens (cf_eng c) e s ->
  parse_rule c f ps r s = parse_rule (unescaped c) f ps r s.
Proof. exact parse_rule_unescaped. Qed.
Print Assumptions C73_no_opening.

Definition settings : config := mkConfig regex_engine exts (Some braces) seqno.
Lemma word_behaves : well_behaved word.
Proof.
  intros sc s R. unfold word. destruct (eat_token regex_engine (anchor ++ group (bs "[a-z]+")) s) as [| |leaf rest] eqn:Q; cbn [fst snd].
  - split; [apply forward_refl; auto|intros; discriminate].
  - split; [apply forward_refl; auto|intros; discriminate].
  - split; [eapply eat_token_forward; eauto; apply regex_engine_ok|intros; discriminate].
Qed.
Lemma settings_tame : tame settings.
Proof.
  split; [apply regex_engine_ok|]. split.
  - intros n fn H. apply lookup_In in H. destruct H as [H|[H|[]]]; inversion H; apply word_behaves.
  - intros e H. inversion H. apply word_behaves.
Qed.
Definition at_ (x : string) (i : nat) : scanner := mkScanner (Some (mkSource (bs x) "")) (Z.of_nat i) (Z.of_nat (length (bs x) - i)).
Lemma at_window : forall x i, (i <= length (bs x))%nat -> window (at_ x i) (mkSource (bs x) "") i (length (bs x) - i).
Proof. intros x i H. unfold window, at_. cbn [src start slen origin]. repeat split; auto. lia. Qed.

Example C73_example : tame settings /\ opens regex_engine braces (text "{:x:}+1") /\
  (exists t, escaped regex_engine braces empty_scope (text "{:x:}+1") (ROk t) (at_ "{:x:}+1" 5) /\
     parse_rule settings 50 (parsers_of sums) "e" (text "{:x:}+1") = (RErr (EUnconsumed (at_ "{:x:}+1" 5) t), at_ "{:x:}+1" 5)) /\
  never_opens regex_engine braces (text "1+2").
Proof.
  assert (T : takes regex_engine (esc_open braces) (text "{:x:}+1") (at_ "{:x:}+1" 2)).
  { eexists _, _, _, (bs "{:x:}+1"), 2%nat, []. split; [apply text_window|]. split; [apply text_shows|]. split; [vm_compute; reflexivity|].
    split; [cbn; lia|]. apply at_window. cbn. lia. }
  split; [exact settings_tame|]. split; [eexists; exact T|]. split.
  - eexists. split; [|vm_compute; reflexivity]. eapply esc_read; [exact T|left; vm_compute; reflexivity|].
    eexists _, 3%nat, 4%nat, (bs ":}+1"), 2%nat, []. split; [apply (at_window "{:x:}+1" 3); cbn; lia|]. split; [vm_compute; reflexivity|]. split; [vm_compute; reflexivity|].
    split; [lia|]. apply (at_window "{:x:}+1" 5). cbn. lia.
  - intros s' (o & i & n & j & W & L & W').
    destruct (window_fun _ _ _ _ _ _ _ W (text_window "1+2")) as (-> & -> & ->). cbn in L, W'.
    assert (K : s' = at_ "1+2" j). { destruct W' as (A & B & C & D). destruct s'; cbn in *. subst. unfold at_. f_equal. }
    subst s'. destruct j as [|[|[|[|j]]]]; [| | | |lia]; eexists; (split; [vm_compute; reflexivity|vm_compute; reflexivity]).
Qed.

(** Expected: an escape stands for one item of a list, wherever it is.  In front it stands for the whole list. *)
Theorem C73_first_item_refuted :
  (exists t s', parse_rule settings 50 (parsers_of sums) "e" (text "1+{:x:}") = (ROk t, s')) /\
  forall f, ~ exists t s', parse_rule settings f (parsers_of sums) "e" (text "{:x:}+1") = (ROk t, s').
Proof.
  split; [do 2 eexists; vm_compute; reflexivity|]. intros [|f] (t & s' & H); vm_compute in H; discriminate.
Qed.
Print Assumptions C73_first_item_refuted.
(** Expected: an escape stands for one of the repetitions.  It stands for all of them. *)
Definition xs : grammar := [("a", TSeq [TS (bs "("); TQuant (TS (bs "x")) 0 0; TS (bs ")")])]%string.
Theorem C73_repetition_refuted :
  (exists t s', parse_rule settings 50 (parsers_of xs) "a" (text "(xx)") = (ROk t, s')) /\
  (exists t s', parse_rule settings 50 (parsers_of xs) "a" (text "({:x:})") = (ROk t, s')) /\
  (exists t s', parse_rule settings 50 (parsers_of xs) "a" (text "(x{:x:})") = (ROk t, s')) /\
  forall f, ~ exists t s', parse_rule settings f (parsers_of xs) "a" (text "({:x:}x)") = (ROk t, s').
Proof.
  split; [do 2 eexists; vm_compute; reflexivity|]. split; [do 2 eexists; vm_compute; reflexivity|]. split; [do 2 eexists; vm_compute; reflexivity|].
  intros [|[|f]] (t & s' & H); vm_compute in H; discriminate.
Qed.
Print Assumptions C73_repetition_refuted.
(** Expected: look-aheads consume nothing.  With an escape they do. *)
Definition looking : grammar := [("a", TSeq [TS (bs "("); TLookAhead (TS (bs "x")); TS (bs ")")])]%string.
Theorem C73_look_ahead_refuted : exists t s', parse_rule settings 50 (parsers_of looking) "a" (text "({:x:})") = (ROk t, s').
Proof. do 2 eexists. vm_compute. reflexivity. Qed.
Print Assumptions C73_look_ahead_refuted.
