(** A reader for ASTs of grammar texts, and checkers for the conditions of GuardSpec over the concrete engine; used for
    the examples. *)
From Verif Require Import Base Scanner Syntax Engine Resolve Regex PegSpec WfSpec WfCheck Ast WbnfAst StrLit Build TextSpec GuardSpec NumSpec NumProofs.

Fixpoint otraverse {A B} (f : A -> option B) (l : list A) : option (list B) :=
  match l with
  | [] => Some []
  | x :: l' => match f x, otraverse f l' with Some y, Some m => Some (y :: m) | _, _ => None end
  end.
Lemma otraverse_ok : forall A B (f : A -> option B) (P : A -> B -> Prop), (forall x y, f x = Some y -> P x y) ->
  forall l m, otraverse f l = Some m -> Forall2 P l m.
Proof.
  intros A B f P H. induction l as [|x l IH]; simpl; intros m E; [injection E as <-; constructor|].
  destruct (f x) eqn:F; [|discriminate]. destruct (otraverse f l); [|discriminate]. injection E as <-. constructor; auto.
Qed.
Definition absent {A} (o : option A) : bool := match o with None => true | Some _ => false end.
Lemma absent_ok : forall A (o : option A), absent o = true -> o = None.
Proof. intros A [a|]; simpl; congruence. Qed.

Section Reader.
  Variable rec : anode -> option ctext.
  Definition text_b (name : string) (n : anode) : option bytes :=
    match node_one n name with Some m => match node_text m with COk s => Some s | _ => None end | None => None end.
  Lemma text_b_ok : forall name n s, text_b name n = Some s -> text_at name n s.
  Proof.
    intros name n s H. unfold text_b in H. destruct (node_one n name) as [m|] eqn:E; [|discriminate]. destruct (node_text m) eqn:T; try discriminate.
    injection H as <-. exists m. auto.
  Qed.
  Definition read_atom (n : anode) : option ctext :=
    match n with
    | ABranch b =>
        let k := which b atom_kinds in
        let lone := (absent (one "term" n) && absent (one "IDENT" n))%bool in
        if String.eqb k "IDENT" then
          if absent (one "term" n) then match text_b "IDENT" n with Some s => Some (CRule (sb s)) | None => None end else None
        else if String.eqb k "term" then
          match one "term" n with Some t => match rec t with Some c => Some (CGroup c) | None => None end | None => None end
        else if negb lone then None
        else if String.eqb k "STR" then
          match text_b "STR" n with Some s => match parse_string s with Some v => Some (CLit v) | None => None end | None => None end
        else if String.eqb k "RE" then
          match text_b "RE" n with Some s => match parse_regexp s with Some v => Some (CRe v) | None => None end | None => None end
        else if String.eqb k "REF" then
          match one "REF" n with
          | Some r => match string_of (one "IDENT" r), string_of (one "default" r) with
                      | COk i, COk d => if String.eqb d "" then Some (CRef i None)
                                        else match parse_string (bs d) with Some v => Some (CRef i (Some v)) | None => None end
                      | _, _ => None
                      end
          | None => None
          end
        else if String.eqb k "ExtRef" then
          match one "ExtRef" n with
          | Some r => match string_of (one "IDENT" r) with COk i => Some (CExt i) | _ => None end
          | None => None
          end
        else if String.eqb k "lookahead" then
          match one "lookahead" n with Some t => match rec t with Some c => Some (CLook c) | None => None end | None => None end
        else if String.eqb k "" then Some CNone
        else None
    | _ => None
    end.
  Definition read_named (n : anode) : option (string * ctext) :=
    match string_of (one "IDENT" n), one "atom" n with
    | COk name, Some a => match read_atom a with Some c => Some (name, c) | None => None end
    | _, _ => None
    end.
  Definition read_quant (q : anode) : option (quant ctext) :=
    match choice_of (Some q), one_op q with
    | COk c, COk op =>
        if Z.eqb c 2 then
          match new_assoc op, one "min" q, one "named" q, one_token_of "opt_leading" q, one_token_of "opt_trailing" q with
          | COk a, None, Some n, COk l, COk r =>
              match read_named n with
              | Some (name, sep) => Some (QList a name sep (negb (String.eqb l "")) (negb (String.eqb r "")))
              | None => None
              end
          | _, _, _, _, _ => None
          end
        else if negb (absent (one "named" q)) then None
        else if Z.eqb c 0 then
          if String.eqb op "+" then Some (QRep 1 0 true)
          else if negb (absent (one "min" q)) then None
          else if String.eqb op "*" then Some (QRep 0 0 false)
          else if String.eqb op "?" then Some (QRep 0 1 false)
          else None
        else if (Z.eqb c 1 && String.eqb op "")%bool then
          match one "min" q with
          | None => match bound (one "max" q) with COk mx => Some (QRep 0 mx false) | _ => None end
          | Some m => match string_of (Some m), bound (Some m), bound (one "max" q) with
                      | COk x, COk mn, COk mx => Some (QRep mn mx (negb (String.eqb x "0")))
                      | _, _, _ => None
                      end
          end
        else None
    | _, _ => None
    end.
  Hypothesis rec_ok : forall t c, rec t = Some c -> reads t c.
  Lemma read_atom_ok : forall n c, read_atom n = Some c -> reads_atom n c.
  Proof.
    intros n c H. destruct n as [| |b]; try discriminate. cbn [read_atom] in H.
    assert (K : forall k, String.eqb (which b atom_kinds) k = true -> kind_of (ABranch b) k) by (intros k Q; exists b; split; auto; now apply String.eqb_eq).
    destruct (String.eqb (which b atom_kinds) "IDENT") eqn:K1.
    { destruct (absent (one "term" (ABranch b))) eqn:A; [|discriminate]. destruct (text_b "IDENT" (ABranch b)) eqn:T; [|discriminate]. injection H as <-.
      apply ra_rule; auto using text_b_ok. now apply absent_ok. }
    destruct (String.eqb (which b atom_kinds) "term") eqn:K2.
    { destruct (one "term" (ABranch b)) eqn:A; [|discriminate]. destruct (rec a) eqn:R; [|discriminate]. injection H as <-. eapply ra_group; eauto. }
    destruct (absent (one "term" (ABranch b)) && absent (one "IDENT" (ABranch b)))%bool eqn:L; [|discriminate]. cbn [negb] in H.
    assert (U : unnamed (ABranch b)) by (apply andb_true_iff in L as [L1 L2]; split; now apply absent_ok). clear L.
    destruct (String.eqb (which b atom_kinds) "STR") eqn:K3.
    { destruct (text_b "STR" (ABranch b)) eqn:T; [|discriminate]. destruct (parse_string b0) eqn:P; [|discriminate]. injection H as <-. eapply ra_lit; eauto using text_b_ok. }
    destruct (String.eqb (which b atom_kinds) "RE") eqn:K4.
    { destruct (text_b "RE" (ABranch b)) eqn:T; [|discriminate]. destruct (parse_regexp b0) eqn:P; [|discriminate]. injection H as <-. eapply ra_re; eauto using text_b_ok. }
    destruct (String.eqb (which b atom_kinds) "REF") eqn:K5.
    { destruct (one "REF" (ABranch b)) as [r|] eqn:O; [|discriminate]. destruct (string_of (one "IDENT" r)) as [i| |] eqn:I; try discriminate.
      destruct (string_of (one "default" r)) as [d| |] eqn:D; try discriminate. destruct (String.eqb d "") eqn:Q.
      - apply String.eqb_eq in Q. subst d. injection H as <-. eapply ra_ref; eauto.
      - apply String.eqb_neq in Q. destruct (parse_string (bs d)) eqn:P; [|discriminate]. injection H as <-. eapply ra_ref_default; eauto. }
    destruct (String.eqb (which b atom_kinds) "ExtRef") eqn:K6.
    { destruct (one "ExtRef" (ABranch b)) as [r|] eqn:O; [|discriminate]. destruct (string_of (one "IDENT" r)) as [i| |] eqn:I; try discriminate.
      injection H as <-. eapply ra_ext; eauto. }
    destruct (String.eqb (which b atom_kinds) "lookahead") eqn:K7.
    { destruct (one "lookahead" (ABranch b)) as [t|] eqn:O; [|discriminate]. destruct (rec t) eqn:R; [|discriminate]. injection H as <-. eapply ra_look; eauto. }
    destruct (String.eqb (which b atom_kinds) "") eqn:K8; [|discriminate]. injection H as <-. apply ra_none; auto.
  Qed.
  Lemma read_named_ok : forall n name c, read_named n = Some (name, c) -> reads_named n name c.
  Proof.
    intros n name c H. unfold read_named in H. destruct (string_of (one "IDENT" n)) eqn:S; try discriminate. destruct (one "atom" n) eqn:O; [|discriminate].
    destruct (read_atom a0) eqn:A; [|discriminate]. injection H as <- <-. econstructor; eauto using read_atom_ok.
  Qed.
  Lemma read_quant_ok : forall n q, read_quant n = Some q -> reads_quant n q.
  Proof.
    intros n q H. unfold read_quant in H. destruct (choice_of (Some n)) as [c| |] eqn:C; try discriminate. destruct (one_op n) as [op| |] eqn:O; try discriminate.
    destruct (Z.eqb c 2) eqn:C2.
    { apply Z.eqb_eq in C2. subst c. destruct (new_assoc op) eqn:A; try discriminate. destruct (one "min" n) eqn:M; try discriminate.
      destruct (one "named" n) eqn:N; try discriminate. destruct (one_token_of "opt_leading" n) eqn:L; try discriminate.
      destruct (one_token_of "opt_trailing" n) eqn:T; try discriminate. destruct (read_named a0) as [[name sep]|] eqn:R; [|discriminate]. injection H as <-.
      apply direction_assoc in A. eapply rq_list; eauto using read_named_ok. }
    destruct (absent (one "named" n)) eqn:N; [|discriminate]. apply absent_ok in N. cbn [negb] in H.
    destruct (Z.eqb c 0) eqn:C0.
    { apply Z.eqb_eq in C0. subst c. destruct (String.eqb op "+") eqn:Q1; [apply String.eqb_eq in Q1; subst op; injection H as <-; now apply rq_plus|].
      destruct (absent (one "min" n)) eqn:M; [|discriminate]. apply absent_ok in M. cbn [negb] in H.
      destruct (String.eqb op "*") eqn:Q2; [apply String.eqb_eq in Q2; subst op; injection H as <-; now apply rq_star|].
      destruct (String.eqb op "?") eqn:Q3; [apply String.eqb_eq in Q3; subst op; injection H as <-; now apply rq_opt|discriminate]. }
    destruct (Z.eqb c 1) eqn:C1; [|discriminate]. apply Z.eqb_eq in C1. subst c. destruct (String.eqb op "") eqn:Q; [|discriminate].
    apply String.eqb_eq in Q. subst op. cbn [andb] in H. destruct (one "min" n) as [m|] eqn:M.
    - destruct (string_of (Some m)) eqn:S; try discriminate. destruct (bound (Some m)) eqn:B; try discriminate.
      destruct (bound (one "max" n)) eqn:X; try discriminate. injection H as <-. apply bound_of_ok in B. apply bound_of_ok in X. eapply rq_range; eauto.
    - destruct (bound (one "max" n)) eqn:X; try discriminate. injection H as <-. apply bound_of_ok in X. now apply rq_upto.
  Qed.
End Reader.

Fixpoint read_term (fuel : nat) (t : anode) : option ctext :=
  match fuel with
  | O => None
  | S fuel =>
      match one_op t, all "term" t with
      | COk op, [] =>
          if String.eqb op "" then
            match one "named" t with
            | Some n => match read_named (read_term fuel) n, otraverse (read_quant (read_term fuel)) (all "quant" t) with
                        | Some (name, a), Some qs => Some (CLeaf name a qs)
                        | _, _ => None
                        end
            | None => None
            end
          else None
      | COk op, _ =>
          match otraverse (read_term fuel) (all "term" t) with
          | Some cs => if String.eqb op "|" then Some (CChoice cs)
                       else if String.eqb op ">" then Some (CStack cs)
                       else if String.eqb op "" then match all "grammar" t with [] => Some (CSeq cs) | _ => None end
                       else None
          | None => None
          end
      | _, _ => None
      end
  end.
Lemma read_term_ok : forall fuel t c, read_term fuel t = Some c -> reads t c.
Proof.
  induction fuel as [|fuel IH]; intros t c H; [discriminate|]. cbn [read_term] in H. destruct (one_op t) as [op| |] eqn:O; try discriminate.
  destruct (all "term" t) as [|t0 ts] eqn:T.
  - destruct (String.eqb op "") eqn:Q; [|discriminate]. apply String.eqb_eq in Q. subst op. destruct (one "named" t) as [n|] eqn:N; [|discriminate].
    destruct (read_named (read_term fuel) n) as [[name a]|] eqn:R; [|discriminate]. destruct (otraverse _ (all "quant" t)) as [qs|] eqn:QS; [|discriminate].
    injection H as <-. eapply rd_leaf; eauto.
    + eapply read_named_ok; eauto.
    + eapply otraverse_ok; [|exact QS]. intros x y. now apply read_quant_ok.
  - rewrite <- T in H. destruct (otraverse (read_term fuel) (all "term" t)) as [cs|] eqn:CS; [|discriminate].
    assert (F : Forall2 reads (all "term" t) cs) by (eapply otraverse_ok; [|exact CS]; auto).
    assert (NE : all "term" t <> []) by congruence.
    destruct (String.eqb op "|") eqn:Q1; [apply String.eqb_eq in Q1; subst op; injection H as <-; now apply rd_choice|].
    destruct (String.eqb op ">") eqn:Q2; [apply String.eqb_eq in Q2; subst op; injection H as <-; now apply rd_stack|].
    destruct (String.eqb op "") eqn:Q3; [|discriminate]. apply String.eqb_eq in Q3; subst op. destruct (all "grammar" t) eqn:G; [|discriminate].
    injection H as <-. now apply rd_seq.
Qed.
Definition read_prod (fuel : nat) (p : anode) : option (string * list ctext) :=
  match string_of (one "IDENT" p), otraverse (read_term fuel) (all "term" p) with
  | COk x, Some cs => Some (x, cs)
  | _, _ => None
  end.
Definition read_grammar (fuel : nat) (n : anode) : option (list (string * list ctext)) :=
  otraverse (read_prod fuel) (flat_map (fun s => match one "prod" s with Some p => [p] | None => [] end) (all "stmt" n)).
Lemma read_grammar_ok : forall fuel n prods, read_grammar fuel n = Some prods -> reads_grammar n prods.
Proof.
  intros fuel n prods. apply otraverse_ok. intros p xcs H. unfold read_prod in H. destruct (string_of (one "IDENT" p)) eqn:S; try discriminate.
  destruct (otraverse (read_term fuel) (all "term" p)) eqn:T; [|discriminate]. injection H as <-. split; auto.
  eapply otraverse_ok; [|exact T]. intros x y. apply read_term_ok.
Qed.

(** * The conditions *)

Section Conditions.
  Variables (w : option term) (eating defined : list string).
  Notation has x l := (existsb (String.eqb x) l).
  Fixpoint solid_b (c : ctext) : bool :=
    match c with
    | CRule x => has x eating
    | CLit v => token_b w v (bs "(" ++ quote_meta v ++ bs ")")
    | CRe v => token_b w v (bs "(" ++ v ++ bs ")")
    | CGroup c => solid_b c
    | CChoice cs => forallb solid_b cs
    | CSeq cs => existsb solid_b cs
    | CLeaf _ a qs => solid_b a && forallb (fun q => match q with QRep mn _ _ => Nat.ltb 0 mn | QList _ _ _ _ _ => true end) qs
    | _ => false
    end.
  Fixpoint sound_b (c : ctext) : bool :=
    match c with
    | CRule x => has x defined
    | CLit _ | CRe _ | CRef _ _ | CExt _ | CNone => true
    | CLook c | CGroup c => sound_b c
    | CChoice cs | CSeq cs => forallb sound_b cs
    | CStack _ => false
    | CLeaf n a qs =>
        sound_b a &&
        (fix go (qs : list (quant ctext)) : bool :=
           match qs with
           | [] => true
           | QRep _ mx _ :: qs' => (negb (Nat.eqb mx 0) || solid_b (CLeaf n a qs')) && go qs'
           | QList _ _ sep _ _ :: qs' => solid_b (CLeaf n a qs') && sound_b sep && go qs'
           end) qs
    end.
  Fixpoint opens_b (c : ctext) : bool :=
    match c with
    | CRule _ | CStack _ => false
    | CLit _ | CRe _ | CRef _ _ | CExt _ | CNone => true
    | CLook c | CGroup c => opens_b c
    | CChoice cs => forallb opens_b cs
    | CSeq cs => (fix go (cs : list ctext) : bool := match cs with [] => true | c :: cs' => opens_b c && (solid_b c || go cs') end) cs
    | CLeaf _ a qs => opens_b a && forallb (fun q => match q with QList _ _ sep true _ => opens_b sep | _ => true end) qs
    end.
  Definition honest_b (c : ctext) : bool :=
    solid_b c ||
    match c with
    | CLeaf _ a qs => negb (existsb qasks qs) && match a with CRule _ => true | CGroup _ => false | _ => match qs with [] => false | _ => true end end
    | _ => false
    end.
  Fixpoint guarded_b (c : ctext) : bool :=
    opens_b c ||
    match c with
    | CChoice cs => forallb guarded_b cs
    | CSeq cs => (fix go (cs : list ctext) : bool := match cs with [] => true | c :: cs' => guarded_b c && (match cs' with [] => true | _ => false end || (solid_b c || (honest_b c && go cs'))) end) cs
    | CLeaf _ (CRule x) qs => negb (String.eqb x "") && negb (existsb qasks qs)
    | CLeaf _ (CGroup c) qs => negb (existsb qasks qs) && guarded_b c
    | _ => false
    end.
  Lemma has_In : forall x l, has x l = true -> In x l.
  Proof. intros x l H. apply existsb_exists in H as (y & I & Q). apply String.eqb_eq in Q. now subst. Qed.
  Notation solid := (GuardSpec.solid regex_engine w eating).
  Notation sound := (sound regex_engine w eating defined).
  Notation opens := (opens regex_engine w eating).
  Notation guarded := (guarded regex_engine w eating).
  Lemma solid_b_ok : forall c, solid_b c = true -> solid c.
  Proof.
    induction c using ctext_ind'; cbn [solid_b]; intro B; try discriminate.
    - constructor. now apply has_In.
    - constructor. eapply token_b_ok; eauto.
    - constructor. eapply token_b_ok; eauto.
    - constructor. auto.
    - constructor. rewrite forallb_forall in B. rewrite Forall_forall in *. auto.
    - constructor. apply existsb_exists in B as (c & I & B). apply Exists_exists. exists c. rewrite Forall_forall in H. auto.
    - apply andb_true_iff in B as [B1 B2]. constructor; auto. rewrite forallb_forall in B2. apply Forall_forall. intros q I. specialize (B2 q I).
      destruct q; auto. now apply Nat.ltb_lt.
  Qed.
  Lemma sound_b_ok : forall c, sound_b c = true -> sound c.
  Proof.
    induction c using ctext_ind'; cbn [sound_b]; intro B; try discriminate; try (now constructor; auto).
    - constructor. now apply has_In.
    - constructor. rewrite forallb_forall in B. rewrite Forall_forall in *. auto.
    - constructor. rewrite forallb_forall in B. rewrite Forall_forall in *. auto.
    - apply andb_true_iff in B as [B1 B2]. induction H as [|q qs Hq F IH]; [constructor; auto|]. destruct q as [mn mx b|ass sn sep l r].
      + apply andb_true_iff in B2 as [B2 B3]. constructor; auto. intros ->. apply solid_b_ok. exact B2.
      + apply andb_true_iff in B2 as [B2 B3]. apply andb_true_iff in B2 as [B2 B4]. constructor; auto.
        * apply solid_b_ok. exact B2. * cbn [qsep] in Hq. inversion Hq; auto.
  Qed.
  Lemma opens_b_ok : forall c, opens_b c = true -> opens c.
  Proof.
    induction c using ctext_ind'; cbn [opens_b]; intro B; try discriminate; try (now constructor; auto).
    - constructor. rewrite forallb_forall in B. rewrite Forall_forall in *. auto.
    - constructor. induction H as [|c cs Hc F IH]; [constructor|]. apply andb_true_iff in B as [B1 B2]. apply orb_true_iff in B2 as [B2|B2].
      + apply oa_solid; auto. now apply solid_b_ok. + apply oa_cons; auto.
    - apply andb_true_iff in B as [B1 B2]. constructor; auto. intros ass sn sep r I. rewrite forallb_forall in B2. specialize (B2 _ I). cbn beta in B2.
      rewrite Forall_forall in H. specialize (H _ I). cbn [qsep] in H. inversion H; auto.
  Qed.
  Lemma honest_b_ok : forall c, honest_b c = true -> honest regex_engine w eating c.
  Proof.
    intros c B. apply orb_true_iff in B as [B|B]; [left; now apply solid_b_ok|right]. destruct c as [| | | | | | | | | | |n a qs]; try discriminate.
    apply andb_true_iff in B as [B1 B2]. exists n, a, qs. split; auto. split; [now apply negb_true_iff|].
    destruct a; try (right; split; [destruct qs; [discriminate|discriminate]|discriminate]); try discriminate. left. eauto.
  Qed.
  Lemma guarded_b_ok : forall c, guarded_b c = true -> guarded c.
  Proof.
    cut (forall c, (guarded_b c = true -> guarded c) /\ match c with CGroup c => guarded_b c = true -> guarded c | _ => True end); [intros H c; apply H|].
    induction c using ctext_ind'; (split; [|exact Logic.I || exact (proj1 IHc)]); cbn [guarded_b]; intro B; apply orb_true_iff in B as [B|B];
      try (apply gd_opens; apply opens_b_ok; exact B); try discriminate.
    - apply gd_choice. rewrite forallb_forall in B. rewrite Forall_forall in *. intros c I. apply H; auto.
    - apply gd_seq. induction H as [|c cs [Hc _] F IH]; [constructor|]. apply andb_true_iff in B as [B1 B2].
      apply orb_true_iff in B2 as [B2|B2]; [destruct cs; [apply ga_last; auto|discriminate]|]. apply orb_true_iff in B2 as [B2|B2].
      + apply ga_solid; auto. now apply solid_b_ok.
      + apply andb_true_iff in B2 as [B2 B3]. apply ga_cons; auto. now apply honest_b_ok.
    - destruct c; try discriminate; apply andb_true_iff in B as [B1 B2].
      + apply gd_rule; [apply String.eqb_neq; now apply negb_true_iff|now apply negb_true_iff].
      + apply gd_leaf; [now apply negb_true_iff|]. now apply (proj2 IHc).
  Qed.
End Conditions.
Definition guarded_text_b (w : option term) (eating : list string) (prods : list (string * list ctext)) : bool :=
  forallb (fun xcs => forallb (sound_b w eating (keys prods)) (snd xcs) && forallb (guarded_b w eating) (snd xcs)) prods &&
  forallb (fun x => match lookup x prods with Some cs => existsb (solid_b w eating) cs | None => false end) eating.
Lemma guarded_text_b_ok : forall w eating prods, guarded_text_b w eating prods = true -> guarded_text regex_engine w eating prods.
Proof.
  intros w eating prods H. apply andb_true_iff in H as [H1 H2]. rewrite forallb_forall in H1, H2. split.
  - intros x cs I. specialize (H1 _ I). apply andb_true_iff in H1 as [A B]. cbn [snd] in A. rewrite forallb_forall in A. apply Forall_forall.
    intros c J. apply sound_b_ok. auto.
  - intros x cs I. specialize (H1 _ I). apply andb_true_iff in H1 as [A B]. cbn [snd] in B. rewrite forallb_forall in B. apply Forall_forall.
    intros c J. apply guarded_b_ok. auto.
  - intros x I. specialize (H2 _ I). destruct (lookup x prods) as [cs|] eqn:L; [|discriminate]. exists cs. split; [now apply lookup_In|].
    apply existsb_exists in H2 as (c & J & B). apply Exists_exists. exists c. split; auto. now apply solid_b_ok.
Qed.
