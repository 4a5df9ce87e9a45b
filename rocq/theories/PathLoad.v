(** Imports of imported files with the resolver of the command. *)
From Verif Require Import Base Scanner Syntax Engine Resolve Compile Parse Ast AstProofs WbnfAst Walker WalkerSpec WalkerProofs Build Recursion Validate
  Front FrontSpec FrontProofs ImportSpec ImportProofs Paths PathSpec PathProofs.

Section Command.
  Variables (w : world) (wbnf : parsers) (fuel : nat).

  Lemma contents_needs : forall good txt ss, contents w wbnf fuel good "" txt ss -> forall p, needs w wbnf fuel txt p ->
    exists t ss', w_read w p = Some t /\ contents w wbnf fuel good p t ss'.
  Proof.
    intros good txt ss C.
    assert (ALL : forall ps ss, contents_all w wbnf fuel good ps ss -> forall p, In p ps -> exists t ss', w_read w p = Some t /\ contents w wbnf fuel good p t ss').
    { induction 1 as [|p0 t ps s s' RD C0 CA IH]; intros p [].
      - subst. eauto.
      - eauto. }
    assert (ONE : forall from t s n ps p, contents w wbnf fuel good from t s -> reads w wbnf fuel from t n -> imports w from n ps -> In p ps ->
      exists t ss', w_read w p = Some t /\ contents w wbnf fuel good p t ss').
    { intros from t s n ps p CT R I J. inversion CT as [? ? n' ps' ss2 R' G' I' CA']; subst. unfold reads in *. assert (n' = n) by congruence. subst.
      rewrite (imports_det _ _ _ _ _ I I') in J. eauto. }
    intros p N. induction N as [n ps p R I J|p q N IH (t & n & ps & RD & R & I & J)].
    - eauto.
    - destruct IH as (t' & s' & RD' & C'). assert (t' = t) by congruence. subst. eauto.
  Qed.

  Variables (grammar_file : string) (cwd : list string).
  Hypothesis joins : w_join w = join_paths.
  Hypothesis cleans : w_clean w = clean_path.
  Hypothesis resolves : w_resolve w = Some (make_resolver grammar_file).
  Hypothesis bare : no_slash grammar_file.

  Lemma bare_base : dir_path grammar_file = "."%string.
  Proof. unfold dir_path. rewrite up_plain by auto. reflexivity. Qed.
  Lemma names_file_command : forall from m p, names_file w from m p -> exists file, p = clean_path (resolve_import "." from file).
  Proof.
    intros from m p (path & more & toks & _ & _ & ->). rewrite cleans, resolves, joins. unfold make_resolver. rewrite bare_base. eauto.
  Qed.
  Lemma needs_relative : forall txt p, needs w wbnf fuel txt p -> rooted p = false /\ p <> ""%string.
  Proof.
    assert (Q : forall from n ps p, imports w from n ps -> In p ps -> rooted p = false /\ p <> ""%string).
    { intros from n ps p (ms & _ & F) J. revert J. induction F as [|m q ms ps NF F IH]; intros []; auto. subst. apply names_file_command in NF as (file & ->).
      rewrite clean_rooted, resolve_rooted by discriminate. split; [reflexivity|apply clean_nonempty]. }
    induction 1 as [n ps p R I J|p q N IH (t & n & ps & RD & R & I & J)]; eauto.
  Qed.

  Lemma nested_never : forall txt p t n ms m path more toks x xs,
    (forall p q txt x xs, w_read w p = Some txt -> place cwd q = place cwd p ++ x :: xs -> w_read w q = None) ->
    needs w wbnf fuel txt p -> w_read w p = Some t -> reads w wbnf fuel p t n -> import_nodes n ms -> In m ms ->
    labelled "path" m = path :: more -> Forall2 (fun leaf tok => exists b, node_text leaf = COk b /\ tok = sb b) (labelled "" path) toks ->
    (forall here, below here (join_paths toks) = here ++ x :: xs) ->
    forall depth n', load_text w wbnf depth fuel txt <> COk (inr n').
  Proof.
    intros txt p t n ms m path more toks x xs FS N RD R IN J L TK DOWN depth n' H. apply text_contents in H.
    destruct (contents_needs _ _ _ H _ N) as (t' & s' & RD' & C'). assert (t' = t) by congruence. subst t'.
    inversion C' as [? ? n2 ps' ss2 R' G' I' CA']; subst. unfold reads in *. assert (n2 = n) by congruence. subst n2.
    assert (Q : exists q, In q ps' /\ names_file w p m q).
    { destruct I' as (ms' & (evs & T & ->) & F). destruct IN as (evs' & T' & ->). rewrite (tour_det _ _ _ _ T _ T') in J.
      clear - F J. induction F as [|m0 q ms ps NF F IH]; [contradiction|]. destruct J as [->|J]; [exists q; split; [now left|auto]|].
      destruct (IH J) as (q' & A & B). exists q'. split; [now right|auto]. }
    destruct Q as (q & JQ & NF). assert (NQ : needs w wbnf fuel txt q). { eapply needs_then; [exact N|]. exists t, n, ps'. auto. }
    destruct (contents_needs _ _ _ H _ NQ) as (tq & sq & RQ & _).
    assert (E : q = clean_path (resolve_import "." p (join_paths toks))).
    { destruct NF as (path' & more' & toks' & L' & TK' & ->). rewrite L in L'. injection L' as <- <-.
      apply all_tokens_spec in TK, TK'. rewrite TK in TK'. injection TK' as <-. rewrite cleans, resolves, joins. unfold make_resolver. now rewrite bare_base. }
    destruct (needs_relative _ _ N) as [NR NE].
    assert (P : place cwd q = place cwd p ++ x :: xs).
    { rewrite E, clean_place, resolve_nested by (auto; discriminate). rewrite DOWN. f_equal. rewrite (place_below cwd p), NR. reflexivity. }
    rewrite (FS _ _ _ _ _ RD P) in RQ. discriminate.
  Qed.
End Command.
