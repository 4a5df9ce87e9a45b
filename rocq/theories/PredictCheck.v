(** Checking by computing that a grammar is predictive, with the engine of Regex.v. *)
From Verif Require Import Base Scanner Syntax Engine Regex RegexProofs PegSpec FordSpec PredictSpec PredictProofs.
Local Open Scope Z_scope.

(** * What a regexp may start with *)
Fixpoint re_empty (r : re) : bool :=
  match r with
  | REps | RStar _ _ | ROpt _ _ | RAssert _ => true
  | RSet _ _ => false
  | RCat a b => re_empty a && re_empty b
  | RAlt a b => re_empty a || re_empty b
  | RGroup _ a => re_empty a
  end.
Fixpoint re_first (r : re) (c : ascii) : bool :=
  match r with
  | REps | RAssert _ => false
  | RSet neg rs => in_set neg rs c
  | RCat a b => re_first a c || re_empty a && re_first b c
  | RAlt a b => re_first a c || re_first b c
  | RStar _ a | ROpt _ a | RGroup _ a => re_first a c
  end.

Definition opened (e : bool) (f : ascii -> bool) (st st' : mstate) : Prop :=
  mpos st' = mpos st /\ mrest st' = mrest st /\ e = true \/
  mpos st < mpos st' /\ exists c p, mrest st = c :: p ++ mrest st' /\ f c = true.

Lemma opened_weak : forall (e e' : bool) (f f' : ascii -> bool) st st', opened e f st st' -> (e = true -> e' = true) ->
  (forall c, f c = true -> f' c = true) -> opened e' f' st st'.
Proof. intros e e' f f' st st' [(A & B & C)|(A & c & p & B & C)] I J; [left; auto|right; split; auto; exists c, p; auto]. Qed.
Lemma opened_trans : forall e1 e2 (f1 f2 : ascii -> bool) a b c, opened e1 f1 a b -> opened e2 f2 b c ->
  opened (e1 && e2) (fun x => f1 x || e1 && f2 x) a c.
Proof.
  intros e1 e2 f1 f2 a b c [(A & B & C)|(A & x & p & B & C)] [(A' & B' & C')|(A' & y & q & B' & C')].
  - left. subst. repeat split; congruence.
  - right. split; [lia|]. exists y, q. rewrite <- B, C, C'. rewrite orb_true_r. auto.
  - right. split; [lia|]. exists x, p. rewrite B', C. auto.
  - right. split; [lia|]. exists x, (p ++ y :: q). rewrite B, B', <- app_assoc, C. auto.
Qed.

Lemma star_opened : forall (e : bool) f step greedy k,
  (forall st k' out, step st k' = Some out -> exists st', opened e f st st' /\ k' st' = Some out) ->
  forall n st out, star_loop step greedy k n st = Some out -> exists st', opened true f st st' /\ k st' = Some out.
Proof.
  intros e f step greedy k Hs.
  assert (R : forall st, opened true f st st) by (left; auto).
  induction n as [|n IH]; intros st out H; simpl in H; [eauto|].
  assert (M : forall o, step st (fun st' => if Nat.ltb (length (mrest st')) (length (mrest st))
        then star_loop step greedy k n st' else None) = Some o -> exists st', opened true f st st' /\ k st' = Some o).
  { intros o Ho. destruct (Hs _ _ _ Ho) as (s2 & E2 & K2).
    destruct (Nat.ltb (length (mrest s2)) (length (mrest st))) eqn:L; [|discriminate].
    destruct (IH _ _ K2) as (s3 & E3 & K3). exists s3; split; auto.
    eapply opened_weak; [exact (opened_trans _ _ _ _ _ _ _ E2 E3)|auto|]. intros c. simpl. destruct (f c), e; simpl; auto. }
  unfold orelse in H. destruct greedy.
  - destruct (step st _) eqn:E in H; [inversion H; subst|]; eauto.
  - destruct (k st) eqn:E; [inversion H; subst|]; eauto.
Qed.

Lemma mt_opened : forall r st k out, mt r st k = Some out -> exists st', opened (re_empty r) (re_first r) st st' /\ k st' = Some out.
Proof.
  assert (R : forall f st, opened true f st st) by (left; auto).
  induction r as [|neg rs|a IHa b IHb|a IHa b IHb|g a IHa|g a IHa|n a IHa|a]; cbn [mt re_empty]; intros st k out H.
  - eauto.
  - destruct (mrest st) as [|c rest] eqn:E; [discriminate|]. destruct (in_set neg rs c) eqn:IS; [|discriminate].
    eexists; split; [|exact H]. right. simpl. split; [lia|]. exists c, []. rewrite E. auto.
  - destruct (IHa _ _ _ H) as (s1 & E1 & K1). destruct (IHb _ _ _ K1) as (s2 & E2 & K2).
    exists s2; split; auto. exact (opened_trans _ _ _ _ _ _ _ E1 E2).
  - unfold orelse in H. destruct (mt a st k) eqn:E.
    + inversion H; subst. destruct (IHa _ _ _ E) as (s1 & E1 & K1). exists s1. split; auto. eapply opened_weak; eauto.
      * intros ->. auto.
      * simpl. intros c ->. auto.
    + destruct (IHb _ _ _ H) as (s1 & E1 & K1). exists s1. split; auto. eapply opened_weak; eauto.
      * intros ->. apply orb_true_r.
      * simpl. intros c ->. apply orb_true_r.
  - exact (star_opened _ _ (mt a) g k IHa _ _ _ H).
  - assert (A : forall o, mt a st k = Some o -> exists st', opened true (re_first (ROpt g a)) st st' /\ k st' = Some o).
    { intros o Q. destruct (IHa _ _ _ Q) as (s1 & E1 & K1). exists s1. split; auto. eapply opened_weak; eauto. }
    unfold orelse in H. destruct g.
    + destruct (mt a st k) eqn:E; [inversion H; subst|]; eauto.
    + destruct (k st) eqn:E; [inversion H; subst|]; eauto.
  - destruct (IHa _ _ _ H) as (s1 & E1 & K1). eexists; split; [|exact K1]. exact E1.
  - destruct (assert_ok a st); [|discriminate]. eauto.
Qed.

Definition all_bytes : list ascii := map ascii_of_nat (seq 0 256).
Lemma all_bytes_in : forall c, In c all_bytes.
Proof.
  intros c. apply in_map_iff. exists (nat_of_ascii c). split; [apply ascii_nat_embedding|]. apply in_seq.
  pose proof (nat_ascii_bounded c). lia.
Qed.
Definition pat_empty (x : bytes) : bool := match parse_re (anchor ++ group x) with Some (r, _) => re_empty r | None => false end.
Definition pat_starts (x : bytes) : list ascii :=
  match parse_re (anchor ++ group x) with Some (r, _) => filter (re_first r) all_bytes | None => [] end.

Lemma search_zero : forall r prev rest st, search r 0 prev rest = Some (0, st) -> mt r (mkM 0 prev rest []) Some = Some st.
Proof.
  intros r prev rest st H. destruct rest as [|c rest]; simpl in H; destruct (mt r _ Some) eqn:E; try discriminate.
  - congruence.
  - congruence.
  - apply search_sound in H as (A & _). lia.
Qed.
Lemma pat_opens : forall T x, p_empty T x = pat_empty x -> p_starts T x = pat_starts x -> opens regex_engine T x.
Proof.
  intros T x A B txt b gs H. rewrite A, B. unfold pat_empty, pat_starts. cbn [regex_engine re_find] in H.
  destruct (parse_re (anchor ++ group x)) as [[r n]|] eqn:P; [|discriminate].
  destruct (search r 0 None txt) as [[a st]|] eqn:Q; [|discriminate]. injection H as -> <- <-.
  apply search_zero in Q. destruct (mt_opened _ _ _ _ Q) as (s & O & K). injection K as ->.
  destruct O as [(C & D & F)|(C & c & p & D & F)]; cbn [mpos mrest] in C, D.
  - left. auto.
  - right. split; [lia|]. exists c, (p ++ mrest st). split; auto. apply filter_In. split; auto. apply all_bytes_in.
Qed.

(** * The conditions, computed *)
Definition mem (c : ascii) (l : list ascii) : bool := existsb (Ascii.eqb c) l.
Lemma mem_in : forall c l, mem c l = true <-> In c l.
Proof.
  intros c l. unfold mem. rewrite existsb_exists. split.
  - intros (d & I & Q). apply Ascii.eqb_eq in Q. subst. auto.
  - intros I. exists c. split; auto. apply Ascii.eqb_refl.
Qed.
Definition apart_b (a b : list ascii) : bool := forallb (fun c => negb (mem c b)) a.
Definition incl_b (a b : list ascii) : bool := forallb (fun c => mem c b) a.
Lemma apart_b_ok : forall a b, apart_b a b = true -> apart a b.
Proof. intros a b H c I J. unfold apart_b in H. rewrite forallb_forall in H. apply H in I. apply mem_in in J. rewrite J in I. discriminate. Qed.
Lemma incl_b_ok : forall a b, incl_b a b = true -> incl a b.
Proof. intros a b H c I. unfold incl_b in H. rewrite forallb_forall in H. apply mem_in. auto. Qed.

Fixpoint predictive_b (T : table) (t : term) (next : list ascii) : bool :=
  match t with
  | TS x => match x with [] => false | _ => true end
  | TRE x => true
  | TRule r => incl_b next (t_next T r)
  | TNamed _ u => predictive_b T u next
  | TSeq us =>
      (fix go us := match us with
                    | [] => true
                    | u :: us' => predictive_b T u (or_then (starts T (TSeq us')) (forallb (empties T) us') next) && go us'
                    end) us
  | TOneof us =>
      (fix go us := match us with
                    | [] => true
                    | u :: us' => predictive_b T u next && apart_b (starts T u) (flat_map (starts T) us') &&
                                  (negb (existsb (empties T) us') || apart_b (starts T u) next) && go us'
                    end) us
  | TQuant u _ mx => apart_b (starts T u) next && predictive_b T u (or_again mx (starts T u) next)
  | TDelim u sep _ cs ce =>
      let more := or_then (starts T sep) (empties T sep) (starts T u) in
      let last := or_then (starts T u) (empties T u) (more ++ next) in
      negb ce && apart_b more next && predictive_b T u (more ++ next) && predictive_b T sep last &&
      (negb cs || apart_b (starts T sep) last)
  | _ => false
  end.
Definition grammar_predictive_b (T : table) (g : grammar) : bool :=
  forallb (fun kv : string * term =>
    (negb (empties T (snd kv)) || t_empty T (fst kv)) && incl_b (starts T (snd kv)) (t_starts T (fst kv)) &&
    predictive_b T (snd kv) (t_next T (fst kv))) g.

(** A table for the rules; patterns as computed. *)
Definition rule_table (e : list string) (f n : list (string * string)) : table :=
  mkTable (fun r => existsb (String.eqb r) e) (fun r => match lookup r f with Some x => bs x | None => [] end)
          (fun r => match lookup r n with Some x => bs x | None => [] end) pat_empty pat_starts.

Lemma implb_ok : forall a b : bool, negb a || b = true -> a = true -> b = true.
Proof. intros [] []; auto. Qed.

Lemma predictive_b_ok : forall T, (forall x, p_empty T x = pat_empty x /\ p_starts T x = pat_starts x) ->
  forall t next, predictive_b T t next = true -> predictive regex_engine T t next.
Proof.
  intros T HT. induction t as [r|x|x|i d|x|ts IH|ts IH|ts IH|u sep a cs ce IHu IHs|u IHu|u mn mx IHu|n u IHu|u g IHu IHg|u IHu] using term_ind';
    intros next P; try discriminate P.
  - apply incl_b_ok. exact P.
  - simpl in *. destruct x; discriminate.
  - apply pat_opens; apply HT.
  - apply predictive_TSeq. simpl in P. induction IH as [|u us H F IHl]; simpl in *; auto.
    apply andb_true_iff in P as [A B]. auto.
  - apply predictive_TOneof. simpl in P. induction IH as [|u us H F IHl]; simpl in *; auto.
    apply andb_true_iff in P as [P P4]. apply andb_true_iff in P as [P P3]. apply andb_true_iff in P as [P1 P2].
    split; auto. split; [apply apart_b_ok; auto|]. split; auto. intros X. apply apart_b_ok. eapply implb_ok; eauto.
  - cbn [predictive_b] in P. cbv zeta in P. cbn [predictive]. cbv zeta. repeat rewrite andb_true_iff in P.
    destruct P as ((((A & B) & C) & D) & F). split; [destruct ce; auto|]. split; [apply apart_b_ok; auto|]. split; auto. split; auto.
    intros ->. apply apart_b_ok. exact F.
  - simpl in *. apply andb_true_iff in P as [A B]. split; auto. apply apart_b_ok; auto.
  - simpl in *. auto.
Qed.
Lemma grammar_predictive_b_ok : forall T g, (forall x, p_empty T x = pat_empty x /\ p_starts T x = pat_starts x) ->
  grammar_predictive_b T g = true -> predictive_grammar regex_engine T g.
Proof.
  intros T g HT H r t L. apply lookup_In in L. unfold grammar_predictive_b in H. rewrite forallb_forall in H.
  specialize (H _ L). simpl in H. apply andb_true_iff in H as [H C]. apply andb_true_iff in H as [A B].
  split; [apply implb_ok; auto|]. split; [apply incl_b_ok; auto|]. apply predictive_b_ok; auto.
Qed.

(** * Textbook grammars, computed *)
Fixpoint textbook_b (t : term) : bool :=
  match t with
  | TRule _ | TS _ => true
  | TRE x => re_valid regex_engine x && re_valid regex_engine (anchor ++ group x) && Nat.leb (re_groups regex_engine x) 1
  | TSeq ts | TOneof ts => forallb textbook_b ts
  | TQuant u _ _ | TNamed _ u | TLookAhead u => textbook_b u
  | TDelim u sep _ _ _ => textbook_b u && textbook_b sep
  | _ => false
  end.
Definition textbook_grammar_b (g : grammar) : bool :=
  forallb (fun kv : string * term => textbook_b (snd kv)) g && match lookup WrapRE g with None => true | _ => false end.
Lemma textbook_b_ok : forall t, textbook_b t = true -> textbook regex_engine t.
Proof.
  induction t as [r|x|x|i d|x|ts IH|ts IH|ts IH|u sep a cs ce IHu IHs|u IHu|u mn mx IHu|n u IHu|u g IHu IHg|u IHu] using term_ind';
    intros P; try discriminate P; try exact Logic.I; try (apply IHu; exact P).
  - reflexivity.
  - cbn [textbook_b] in P. apply andb_true_iff in P as [P C]. apply andb_true_iff in P as [A B]. apply Nat.leb_le in C.
    split; [exact A|split; [exact B|exact C]].
  - cbn [textbook textbook_b] in *. induction IH as [|u us H F IHl]; [exact Logic.I|]. apply andb_true_iff in P as [A B]. split; [apply H; exact A|apply IHl; exact B].
  - cbn [textbook textbook_b] in *. induction IH as [|u us H F IHl]; [exact Logic.I|]. apply andb_true_iff in P as [A B]. split; [apply H; exact A|apply IHl; exact B].
  - cbn [textbook textbook_b] in *. apply andb_true_iff in P as [A B]. auto.
Qed.
Lemma textbook_grammar_b_ok : forall g, textbook_grammar_b g = true -> textbook_grammar regex_engine g.
Proof.
  intros g H. unfold textbook_grammar_b in H. apply andb_true_iff in H as [A B]. split.
  - intros r t L. apply lookup_In in L. rewrite forallb_forall in A. apply textbook_b_ok. apply (A _ L).
  - destruct (lookup WrapRE g); auto; discriminate.
Qed.
