(** Grammar texts in any layout: from the text to the AST and the grammar. *)
From Verif Require Import Base Scanner ScannerSpec ScannerProofs Syntax Resolve Engine Regex Compile Parse WalkerProofs PegSpec CompileProofs PegProofs PegComplete CutSpec DrawProofs ChainProofs TopProofs WbnfGrammar Ast AstProofs WbnfAst
  Walker Build CutPoints NumSpec TextSpec TextProofs Validate Front FrontFuel RefsSpec RefsProofs GuardProofs TokenProofs LexProofs LayoutAst PegText LayoutProofs LayoutSpec.
Local Open Scope string_scope.
Local Open Scope list_scope.

Lemma W_resolved : resolve_stacks wbnf_grammar = COk W.
Proof. vm_compute. reflexivity. Qed.
Lemma W_all : resolve_all wbnf_grammar = COk W.
Proof. vm_compute. reflexivity. Qed.
Lemma W_plain : plain_grammar W = true.
Proof. vm_compute. reflexivity. Qed.
Lemma W_hooked : hooked_grammar false W = true.
Proof. vm_compute. reflexivity. Qed.

(** The configuration and the scanner of the parse of a grammar text, and how many numbers it draws. *)
Definition text_config (w : world) : config := mkConfig (w_engine w) [] None (w_rnd w).
Definition text_scanner (file : string) (x : bytes) : scanner := mkScanner (Some (mkSource x file)) 0 (blen x).

Theorem text_parsed : forall E wbnf ss x file, finds_tokens E -> compile E wbnf_grammar = COk wbnf -> text_of ss x ->
  exists n, reads_grammar n (rules_of ss) /\ free n /\
  (forall w fuel r, w_engine w = E -> drawn_ok (w_rnd w) (draws (text_config w) fuel wbnf "grammar" (text_scanner file x)) ->
     parse_text w wbnf fuel file x = COk r -> r = inr n) /\
  exists N k, forall w fuel, w_engine w = E -> drawn_ok (w_rnd w) k -> unreserved (w_rnd w) k -> N <= fuel -> parse_text w wbnf fuel file x = COk (inr n).
Proof.
  intros E wbnf ss x file S C (NE & w0 & y & -> & WH & WT).
  set (s0 := text_scanner file (w0 ++ y)).
  assert (A : At s0 (w0 ++ y)).
  { exists (mkSource (w0 ++ y) file), [], []. repeat split; auto. cbn [app origin]. now rewrite app_nil_r. }
  destruct (grammar_ok _ S s0 _ _ _ NE WT WH A) as (vs & s' & M & A' & ND).
  destruct (grammar_reads ss _ _ eq_refl NE ND (ex_intro _ vs eq_refl)) as (N1 & b & R & FR & H1).
  assert (PG : p_grammar wbnf = W).
  { pose proof (compile_resolves _ _ _ C) as CR. rewrite W_resolved in CR. congruence. }
  assert (EV : env_ok E [p_rules wbnf] [W]) by exact (compile_env _ _ _ _ C W_all W_plain).
  assert (SH : shows s' []).
  { destruct A' as (o & pre & post & SR & O & ST & SL). unfold shows, sstring. rewrite SR. apply At_slice. exists o, pre, post. auto. }
  exists (ABranch b). split; [exact R|]. split; [exact FR|]. split.
  - intros w fuel r <- D H. fold s0 in D. unfold parse_text in H. fold (text_config w) in H. fold (text_scanner file (w0 ++ y)) in H. fold s0 in H.
    pose proof (run_sound_drawn (text_config w) eq_refl W wbnf EV fuel "grammar" s0 D) as RS.
    destruct (parse_rule (text_config w) fuel wbnf "grammar" s0) as [[v|e| |] s1] eqn:P; try discriminate.
    + destruct RS as [MS _]. pose proof (proj1 (peg_deterministic _) _ _ _ _ _ _ MS _ M) as Q. injection Q as -> ->. rewrite PG in H.
      apply cbind_inv in H as ([b' g'] & F & H). apply (from_parser_mono _ (fuel + N1)) in F; [|lia]. rewrite H1 in F by lia. congruence.
    + exfalso. assert (X : forall o, means (cf_eng (text_config w)) W "grammar" s0 o -> o = Succ (Node "grammar" XNone vs) s').
      { intros o MO. exact (proj1 (peg_deterministic _) _ _ _ _ _ _ MO _ M). }
      destruct e; try (destruct RS as [[_ MS]|[_ MS]]; apply X in MS; discriminate).
      destruct RS as (_ & MS & u & SU & NU). apply X in MS. injection MS as -> ->. unfold shows in *. congruence.
  - destruct (run_complete_drawn E W wbnf EV false ltac:(discriminate) W_hooked "grammar" s0 _ M) as (N2 & k & H2).
    { intros v s2 Q. injection Q as <- <-. eauto. }
    exists (N1 + N2), k. intros w fuel <- D U L. unfold parse_text. fold (text_scanner file (w0 ++ y)). fold s0.
    destruct (H2 (w_rnd w) fuel D U ltac:(lia)) as [_ [H3 _]]. rewrite (H3 SH), PG, H1 by lia. reflexivity.
Qed.

Lemma free_below : forall n m, free n -> below n m -> free m.
Proof. intros n m F B b H. apply F. eapply below_trans; eauto. Qed.
Lemma free_lookup : forall n x, free n -> odd_name x = true -> one x n = None /\ all x n = [].
Proof.
  intros n x F O. assert (A : all x n = []).
  { destruct (all x n) as [|m l] eqn:Q; auto. exfalso. assert (I : In m (all x n)) by (rewrite Q; left; auto).
    destruct (one_all_of _ _ _ I) as (b & -> & K). specialize (F b (below_refl _)). rewrite Forall_forall in F.
    destruct K as [K|(l' & K & _)]; apply lookup_In in K; specialize (F _ K); cbn [fst] in F; congruence. }
  split; auto. destruct (one x n) as [m|] eqn:Q; auto. apply one_all in Q. rewrite A in Q. destruct Q.
Qed.
Lemma free_plain : forall n, free n -> plain_tree n.
Proof.
  intros n F b B. specialize (F b B). rewrite Forall_forall in F. split.
  - destruct (lookup "grammar" b) eqn:L; auto. apply lookup_In in L. specialize (F _ L). discriminate.
  - destruct (lookup "macrodef" b) eqn:L; auto. apply lookup_In in L. specialize (F _ L). discriminate.
Qed.

(** * Without pragmas nothing is imported *)
Definition pragmatic (k : kind) : bool := match k with KPragma | KPragmaImport | KPragmaImportPath | KPragmaMacrodef => true | _ => false end.
Lemma visited_plain : forall k n k' m, free n -> pragmatic k = false -> In (k', m) (visited k n) -> pragmatic k' = false.
Proof.
  intros k n k' m F P H. unfold visited in H. apply in_flat_map in H as (((name & many) & k2) & I & H).
  apply in_map_iff in H as (m' & E & H). injection E as -> ->.
  destruct k; try discriminate; cbn [fields In] in I; repeat (destruct I as [I|I]; [injection I as <- <- <-; try reflexivity|]); try destruct I.
  exfalso. destruct (free_lookup _ "pragma" F eq_refl) as [O _]. rewrite O in H. destruct H.
Qed.
Section Walking.
  Context {St : Type}.
  Definition quiet (enter exit : kind -> anode -> St -> cres (option stopper * St)) : Prop :=
    (forall k n st, pragmatic k = false -> enter k n st = COk (None, st)) /\ forall k n st, exit k n st = COk (None, st).
  Lemma walk_free : forall n, free n -> exists N, forall enter exit k fuel st, quiet enter exit -> N <= fuel -> pragmatic k = false -> walk enter exit fuel k n st = COk (None, st).
  Proof.
    apply (anode_ind' (fun n => free n -> exists N, forall enter exit k fuel st, quiet enter exit -> N <= fuel -> pragmatic k = false -> walk enter exit fuel k n st = COk (None, st))
      (fun c => free_child c -> exists N, forall m, (match c with One x => m = x | Many l => In m l end) ->
         forall enter exit k fuel st, quiet enter exit -> N <= fuel -> pragmatic k = false -> walk enter exit fuel k m st = COk (None, st))).
    - intros l _. exists 1. intros enter exit k [|fuel] st [enters exits] L P; [lia|]. cbn [walk]. rewrite enters by auto. cbn [cbind reaction].
      destruct (leaf_kind k); auto. replace (visited k (ALeaf l)) with (@nil (kind * anode)) by (destruct k; reflexivity). cbn [walk_children cbind]. rewrite exits. reflexivity.
    - intros l _. exists 1. intros enter exit k [|fuel] st [enters exits] L P; [lia|]. cbn [walk]. rewrite enters by auto. cbn [cbind reaction].
      destruct (leaf_kind k); auto. replace (visited k (AExtra l)) with (@nil (kind * anode)) by (destruct k; reflexivity). cbn [walk_children cbind]. rewrite exits. reflexivity.
    - intros b IH F.
      assert (G : exists N, forall name m, (In (name, One m) b \/ exists l, In (name, Many l) b /\ In m l) ->
         forall enter exit k fuel st, quiet enter exit -> N <= fuel -> pragmatic k = false -> walk enter exit fuel k m st = COk (None, st)).
      { assert (FC : Forall (fun kv : string * children anode => free_child (snd kv)) b).
        { apply Forall_forall. intros [k [m|ms]] I; cbn [snd free_child].
          - eapply free_below; [exact F|]. eapply below_one; eauto. constructor.
          - apply Forall_forall. intros m IM. eapply free_below; [exact F|]. eapply below_many; eauto. constructor. }
        clear F. induction IH as [|[nm c] b H _ IHb]; [exists 0; intros name m [[]|(l & [] & _)]|].
        inversion FC as [|? ? F1 F2]; subst. destruct (IHb F2) as (N1 & H1). destruct (H F1) as (N2 & H2). cbn [snd] in H2.
        exists (N1 + N2). intros name m I enter exit k fuel st Q L P. destruct I as [[I|I]|(l & [I|I] & IM)].
        - injection I as -> ->. apply H2; auto. lia.
        - apply (H1 name m); auto. lia.
        - injection I as -> ->. apply H2; auto. lia.
        - apply (H1 name m); eauto. lia. }
      destruct G as (N & G). exists (Datatypes.S N). intros enter exit k [|fuel] st [enters exits] L P; [lia|]. cbn [walk]. rewrite enters by auto. cbn [cbind reaction].
      destruct (leaf_kind k); auto.
      assert (CH : forall l, (forall k1 n1, In (k1, n1) l -> In (k1, n1) (visited k (ABranch b))) -> walk_children (walk enter exit fuel) l st = COk (inr st)).
      { induction l as [|[k1 n1] l IHl]; intros SUB; cbn [walk_children]; auto.
        pose proof (SUB _ _ (or_introl eq_refl)) as V. destruct (visited_all _ _ _ _ V) as (name & IA).
        destruct (one_all_of _ _ _ IA) as (b' & E & K). injection E as <-.
        rewrite (G name n1).
        - cbn [cbind reaction]. apply IHl. intros; apply SUB; right; auto.
        - destruct K as [K|(l' & K & IM)]; apply lookup_In in K; eauto.
        - split; auto.
        - lia.
        - eapply visited_plain; eauto. }
      rewrite CH by auto. cbn [cbind]. rewrite exits. reflexivity.
    - intros n IH F. cbn [free_child] in F. destruct (IH F) as (N & H). exists N. intros m -> . auto.
    - intros ns IH F. cbn [free_child] in F. induction IH as [|n ns H _ IHn]; [exists 0; intros m []|]. inversion F as [|? ? F1 F2]; subst.
      destruct (IHn F2) as (N1 & H1). destruct (H F1) as (N2 & H2). exists (N1 + N2).
      intros m [->|I] enter exit k fuel st Q L P; [apply H2; auto; lia|apply H1; auto; lia].
  Qed.
End Walking.

Theorem text_loaded : forall E wbnf ss x, finds_tokens E -> compile E wbnf_grammar = COk wbnf -> text_of ss x ->
  exists n, reads_grammar n (rules_of ss) /\ plain_tree n /\
  (forall w depth fuel r, w_engine w = E -> drawn_ok (w_rnd w) (draws (text_config w) fuel wbnf "grammar" (text_scanner "" x)) ->
     load_text w wbnf depth fuel x = COk r -> r = inr n) /\
  exists N k, forall w depth fuel, w_engine w = E -> drawn_ok (w_rnd w) k -> unreserved (w_rnd w) k -> N <= fuel -> load_text w wbnf depth fuel x = COk (inr n).
Proof.
  intros E wbnf ss x S C T. destruct (text_parsed E wbnf ss x "" S C T) as (n & R & F & H0 & N1 & k & H1).
  destruct (walk_free (St := loading) n F) as (N2 & H2). exists n. split; [exact R|]. split; [apply free_plain; exact F|].
  assert (Q : forall w load, quiet (fun k n st => match k with KPragmaImport => import_node w load "" n st | _ => COk (None, st) end) (fun (_ : kind) (_ : anode) st => COk (None, st))).
  { intros w load. split; [intros [] ? ? ?; try discriminate; reflexivity|reflexivity]. }
  split; [|exists (N1 + N2), k].
  - intros w depth fuel r WE D H. unfold load_text, make_grammar in H. apply cbind_inv in H as ([r1 im] & H & E1). injection E1 as <-.
    apply cbind_inv in H as (r2 & P & H). rewrite (H0 w fuel r2 WE D P) in H.
    apply cbind_inv in H as ([s st] & K & H). apply (walk_mono _ _ _ _ (fuel + N2)) in K; [|lia]. rewrite H2 in K; [|apply Q|lia|reflexivity].
    injection K as <- <-. cbn in H. congruence.
  - intros w depth fuel WE D U L. unfold load_text, make_grammar. rewrite H1 by (auto; lia). cbn [cbind]. rewrite H2; [reflexivity|apply Q|lia|reflexivity].
Qed.
Theorem text_built : forall w wbnf ss x depth fuel g, finds_tokens (w_engine w) -> compile (w_engine w) wbnf_grammar = COk wbnf -> text_of ss x ->
  drawn_ok (w_rnd w) (draws (text_config w) fuel wbnf "grammar" (text_scanner "" x)) ->
  build_text w wbnf depth fuel x = COk (inr g) -> g = insert_cut_points (grammar_text (rules_of ss)).
Proof.
  intros w wbnf ss x depth fuel g S C T D B. destruct (text_loaded (w_engine w) wbnf ss x S C T) as (n & R & P & H & _).
  unfold build_text in B. apply cbind_inv in B as (r & LT & B). rewrite (H w _ _ _ eq_refl D LT) in B. apply cbind_inv in B as (es & V & B). destruct es as [|e es]; [|discriminate].
  apply cbind_inv in B as (g' & B & E). injection E as ->. destruct (accepted_names _ _ _ _ _ _ _ P R V B) as [ND _]. exact (built_text _ _ _ _ R ND B).
Qed.

(** * Comments that are not read *)
Lemma tail_closed : forall a u, ~ In "/"%char u -> closed (a :: u).
Proof.
  intros a u N p q H. destruct q as [|c q]; auto. exfalso.
  assert (L : (length p <= length u)%nat) by (apply (f_equal (@length _)) in H; cbn [app length bs list_ascii_of_string] in H; rewrite !app_length in H; cbn [length] in H; lia).
  assert (R : nth_error (p ++ bs "*/" ++ c :: q) (Datatypes.S (length p)) = Some "/"%char).
  { rewrite nth_error_app2 by lia. replace (Datatypes.S (length p) - length p)%nat with 1%nat by lia. reflexivity. }
  rewrite <- H in R. cbn [app nth_error] in R. destruct (Nat.eq_dec (length p) (length u)) as [Q|Q].
  - rewrite nth_error_app2, Q, Nat.sub_diag in R by lia. discriminate.
  - rewrite nth_error_app1 in R by lia. apply nth_error_In in R. auto.
Qed.
Lemma body_closed : forall b, block_body b -> closed b.
Proof.
  intros b [(c & -> & N)|(n & c & -> & N & M)]; [apply tail_closed; auto|]. cbn [repeat app]. apply tail_closed. intros I. apply in_app_or in I as [I|[I|[]]]; [|auto].
  apply repeat_spec in I. discriminate.
Qed.
Lemma closed_first : forall b l y y', closed b -> b ++ bs "*/" ++ y = (b ++ l) ++ bs "*/" ++ y' -> forall b', b' = b ++ l -> closed b' -> b' = b.
Proof.
  intros b l y y' C H b' -> C'. rewrite <- app_assoc in H. apply app_inv_head in H. destruct l as [|c [|d l]]; [apply app_nil_r| |].
  - cbn [app bs list_ascii_of_string] in H. injection H as _ H _. discriminate.
  - cbn [app bs list_ascii_of_string] in H. injection H as <- <- H. exfalso. assert (Q : l ++ bs "*/" = []).
    { apply (C' b). rewrite <- !app_assoc. reflexivity. }
    destruct l; discriminate.
Qed.
Lemma closed_unique : forall b y b' y', closed b -> closed b' -> b ++ bs "*/" ++ y = b' ++ bs "*/" ++ y' -> b = b'.
Proof.
  intros b y b' y' C C' H. pose proof H as Q. apply app_eq_app in Q as (l & [[-> _]|[-> _]]).
  - apply (closed_first b' l y' y C' (eq_sym H)); auto.
  - symmetry. apply (closed_first b l y y' C H); auto.
Qed.

Lemma unread : forall w wbnf x depth fuel r o, compile (w_engine w) wbnf_grammar = COk wbnf -> o = Fail \/ o = Abort ->
  means (w_engine w) W "grammar" (text_scanner "" x) o -> drawn_ok (w_rnd w) (draws (text_config w) fuel wbnf "grammar" (text_scanner "" x)) ->
  load_text w wbnf depth fuel x = COk r -> r = inl BadSyntax.
Proof.
  intros w wbnf x depth fuel r o C O M D H. set (s0 := text_scanner "" x) in *.
  assert (EV : env_ok (w_engine w) [p_rules wbnf] [W]) by exact (compile_env _ _ _ _ C W_all W_plain).
  unfold load_text, make_grammar in H. apply cbind_inv in H as ([r1 im] & H & E1). injection E1 as <-.
  apply cbind_inv in H as (r2 & P & H). assert (Q : r2 = inl BadSyntax); [|subst r2; congruence]. clear H.
  unfold parse_text in P. fold (text_config w) in P. fold (text_scanner "" x) in P. fold s0 in P.
  pose proof (run_sound_drawn (text_config w) eq_refl W wbnf EV fuel "grammar" s0 D) as RS.
  destruct (parse_rule (text_config w) fuel wbnf "grammar" s0) as [[v|e| |] s1] eqn:PR; try discriminate; [|congruence].
  destruct RS as [MS _]. pose proof (proj1 (peg_deterministic _) _ _ _ _ _ _ MS _ M). destruct O; subst; discriminate.
Qed.
Theorem block_unread : forall w wbnf w0 b y depth fuel r, finds_tokens (w_engine w) -> compile (w_engine w) wbnf_grammar = COk wbnf ->
  forallb white w0 = true -> closed b -> ~ block_body b -> let x := w0 ++ block b ++ y in
  drawn_ok (w_rnd w) (draws (text_config w) fuel wbnf "grammar" (text_scanner "" x)) ->
  load_text w wbnf depth fuel x = COk r -> r = inl BadSyntax.
Proof.
  intros w wbnf w0 b y depth fuel r S C WH CL NB x D H. set (s0 := text_scanner "" x) in *.
  assert (XQ : x = w0 ++ bs "/*" ++ b ++ bs "*/" ++ y) by (unfold x, block; rewrite <- !app_assoc; reflexivity).
  assert (A : At s0 (w0 ++ bs "/*" ++ b ++ bs "*/" ++ y)).
  { rewrite <- XQ. exists (mkSource x ""), [], []. repeat split; auto. cbn [app origin]. now rewrite app_nil_r. }
  pose proof (block_stops (w_engine w) S s0 w0 _ WH A) as M.
  specialize (M (fun b' y' Q BB => NB (eq_ind_r block_body BB (closed_unique _ _ _ _ CL (body_closed _ BB) Q)))).
  exact (unread w wbnf x depth fuel r Fail C (or_introl eq_refl) M D H).
Qed.

(** A production without its semicolon at the end. *)
Theorem unfinished_unread : forall w wbnf w0 x depth fuel r, finds_tokens (w_engine w) -> compile (w_engine w) wbnf_grammar = COk wbnf ->
  forallb white w0 = true -> unfinished x ->
  drawn_ok (w_rnd w) (draws (text_config w) fuel wbnf "grammar" (text_scanner "" (w0 ++ x))) ->
  load_text w wbnf depth fuel (w0 ++ x) = COk r -> r = inl BadSyntax.
Proof.
  intros w wbnf w0 x depth fuel r S C WH U D H. apply (unread w wbnf (w0 ++ x) depth fuel r Abort C (or_intror eq_refl)); auto.
  apply (unfinished_stops (w_engine w) S _ w0 x WH); [|exact U].
  exists (mkSource (w0 ++ x) ""), [], []. repeat split; auto. cbn [app origin]. now rewrite app_nil_r.
Qed.
Lemma lays_after : forall ks us z y x, lays ks z x -> lays us y z -> lays (ks ++ us) y x.
Proof. intros ks us z y x L. induction L as [|k ks w x z W G L IH]; intros U; cbn [app]; auto. constructor; auto. Qed.
Lemma lays_semi : forall ks y x, lays ks y x -> lays ks (y ++ bs ";") (x ++ bs ";").
Proof.
  intros ks y x L. induction L as [y|k ks w x y WH G L IH]; [constructor|]. rewrite <- !app_assoc. constructor; auto.
  intros -> c z E. destruct x as [|d x]; [|inversion E; subst; eapply G; eauto]. cbn in E. inversion E; subst. destruct k; cbn; auto; try (destruct (hd _ _ =? _)%char; reflexivity).
Qed.
Theorem unfinished_text : forall x, unfinished x -> exists ss, text_of ss (x ++ bs ";").
Proof.
  intros x U. assert (H : exists ss, ss <> [] /\ writes_text ss (x ++ bs ";")).
  { induction U as [t c ks x NT WR L|t c ks x y NT WR _ (ss & N & IH) L|t w y N _ (ss & NE & IH) WH|b w y BB _ (ss & N & IH) WH].
    - exists [Rule (sb t) c]. split; [discriminate|]. eapply wt_rule; [exact NT|exact WR|constructor|]. apply lays_semi in L. cbn [app] in L.
      assert (L2 : lays [Sign ";"] [] (bs ";")) by (apply (ly_next (Sign ";") [] [] [] []); [reflexivity|discriminate|constructor]).
      exact (lays_after _ _ _ _ _ L L2).
    - exists (Rule (sb t) c :: ss). split; [discriminate|]. eapply wt_rule; [exact NT|exact WR|exact IH|]. apply lays_semi. exact L.
    - exists (Note (bs "//" ++ t) :: ss). split; [discriminate|]. rewrite <- !app_assoc. rewrite app_assoc. constructor; auto. right. eauto.
    - exists (Note (block b) :: ss). split; [discriminate|]. rewrite <- !app_assoc. constructor; auto. }
  destruct H as (ss & N & H). exists ss. split; auto. exists [], (x ++ bs ";"). auto.
Qed.
