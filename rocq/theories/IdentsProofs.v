(** Proofs about [Idents]. *)
From Verif Require Import Base Scanner Syntax Resolve Ast WbnfAst Walker WalkerSpec WalkerProofs GoText GenText Codegen CodegenProofs Idents IdentsSpec.
From Coq Require Import Permutation.
Local Open Scope string_scope.
Local Open Scope list_scope.

(** Callbacks that succeed more often. *)
Section Less.
  Context {St : Type}.
  Variables (enter exit enter' exit' : kind -> anode -> St -> cres (option stopper * St)).
  Hypothesis LE : forall k n st r, enter k n st = COk r -> enter' k n st = COk r.
  Hypothesis LX : forall k n st r, exit k n st = COk r -> exit' k n st = COk r.
  Lemma walk_less : forall fuel k n st r, walk enter exit fuel k n st = COk r -> walk enter' exit' fuel k n st = COk r.
  Proof.
    induction fuel as [|fuel IH]; intros k n st r W; [discriminate|]. cbn [walk] in *.
    destruct (enter k n st) as [[s st1]| |] eqn:E; try discriminate. rewrite (LE _ _ _ _ E). cbn [cbind] in *.
    destruct (leaf_kind k); [exact W|]. destruct (reaction s) as [x|]; [exact W|].
    assert (C : forall l st c, walk_children (walk enter exit fuel) l st = COk c -> walk_children (walk enter' exit' fuel) l st = COk c).
    { induction l as [|[k' m] l IHl]; intros st2 c H; cbn [walk_children] in *; [exact H|].
      destruct (walk enter exit fuel k' m st2) as [[s' st3]| |] eqn:E'; try discriminate. rewrite (IH _ _ _ _ E'). cbn [cbind] in *.
      destruct (reaction s'); auto. }
    destruct (walk_children (walk enter exit fuel) (visited k n) st1) as [c| |] eqn:EC; try discriminate. rewrite (C _ _ _ EC). cbn [cbind] in *.
    destruct c as [p|st2]; [exact W|]. destruct (exit k n st2) as [q| |] eqn:EX; try discriminate. rewrite (LX _ _ _ _ EX). exact W.
  Qed.
End Less.

(** A walk that calls back without failing has got the name of each rule and named term. *)
Definition step_names (st : list string * bool) (e : event) : list string * bool :=
  match e with
  | Enter KNamed n => match string_of (one "IDENT" n) with COk x => (if String.eqb x "@" then fst st else with_name x (fst st), snd st) | _ => (fst st, true) end
  | Enter KProd n => match string_of (one "IDENT" n) with COk x => (with_name x (fst st), snd st) | _ => (fst st, true) end
  | _ => st
  end.
Definition act_names (st : list string) (e : event) : list string := fst (step_names (st, false) e).
Definition no_stop (k : kind) (n : anode) : bool := false.
Lemma idents_walk : forall fuel k n st s st', height n < fuel -> walk idents_enter idents_exit fuel k n st = COk (s, st') ->
  exists evs, tour no_stop k n evs /\ st' = fold_left act_names evs st.
Proof.
  intros fuel k n st s st' H W. destruct (walk_tour no_stop act_names fuel k n st H) as (evs & T & E). exists evs. split; [exact T|].
  assert (E' : walk (entering no_stop act_names) (leaving act_names) fuel k n st = COk (s, st')).
  { apply (walk_less idents_enter idents_exit); [| |exact W].
    - intros k' m st0 r R. unfold entering, no_stop. rewrite andb_false_r. destruct k'; cbn [idents_enter] in R;
        try (destruct (string_of (one "IDENT" m)) as [x| |] eqn:EX; try discriminate R; cbn [cbind] in R);
        rewrite <- R; unfold act_names, step_names; rewrite ?EX; reflexivity.
    - intros k' m st0 r R. exact R. }
  congruence.
Qed.

Lemma with_name_in : forall x y st, In y (with_name x st) <-> In y st \/ y = x.
Proof.
  intros x y st. unfold with_name. destruct (existsb (String.eqb x) st) eqn:E.
  - apply existsb_exists in E as (z & I & Q). apply String.eqb_eq in Q. subst z. split; [auto|]. intros [J| ->]; auto.
  - rewrite in_app_iff. cbn. intuition.
Qed.
Lemma with_name_nodup : forall x st, NoDup st -> NoDup (with_name x st).
Proof.
  intros x st N. unfold with_name. destruct (existsb (String.eqb x) st) eqn:E; [exact N|].
  eapply Permutation_NoDup; [apply Permutation_cons_append|]. constructor; [|exact N]. intros I.
  assert (existsb (String.eqb x) st = true) by (apply existsb_exists; exists x; split; [exact I|apply String.eqb_refl]). congruence.
Qed.
Definition adds (e : event) (x : string) : Prop :=
  match e with Enter KProd m => called m x | Enter KNamed m => x <> "@" /\ called m x | _ => False end.
Lemma act_in : forall e st x, In x (act_names st e) <-> In x st \/ adds e x.
Proof.
  intros [k m|k m] st x; [|cbn; tauto]. destruct k; try (cbn; tauto); cbn [adds]; unfold act_names, step_names, called; cbn [fst snd];
    destruct (string_of (one "IDENT" m)) as [y| |] eqn:E; cbn [fst]; try (intuition congruence).
  - destruct (String.eqb_spec y "@") as [->|NE].
    + split; [auto|]. intros [I|[A B]]; [exact I|]. injection B as <-. congruence.
    + rewrite with_name_in. split; (intros [I|A]; [auto|]); [subst; auto|]. destruct A as [_ A]. injection A as <-. auto.
  - rewrite with_name_in. split; (intros [I|A]; [auto|]); [subst; auto|]. injection A as <-. auto.
Qed.
Lemma acts_in : forall evs st x, In x (fold_left act_names evs st) <-> In x st \/ exists e, In e evs /\ adds e x.
Proof.
  induction evs as [|e evs IH]; intros st x; cbn [fold_left].
  - split; [auto|]. intros [I|(e & [] & _)]. exact I.
  - rewrite IH, act_in. split.
    + intros [[I|A]|(e' & I & A)]; [auto| |]; right; [exists e|exists e']; split; auto; [left|right]; auto.
    + intros [I|(e' & [<-|I] & A)]; eauto.
Qed.
Lemma acts_nodup : forall evs st, NoDup st -> NoDup (fold_left act_names evs st).
Proof.
  induction evs as [|e evs IH]; intros st N; cbn [fold_left]; [exact N|]. apply IH. destruct e as [k m|k m]; [|exact N].
  destruct k; try exact N; unfold act_names, step_names; cbn [fst snd]; destruct (string_of (one "IDENT" m)) as [y| |]; cbn [fst]; try exact N;
    try (destruct (String.eqb y "@"); [exact N|]); apply with_name_nodup; exact N.
Qed.

(** * The order *)
Lemma quotes_eq : forall a b, in_quotes a = in_quotes b -> a = b.
Proof.
  intros a b E. injection E as E. revert b E. induction a as [|c a IH]; intros [|d b] E; cbn in E; auto.
  - injection E as _ E. destruct b; discriminate.
  - injection E as _ E. destruct a; discriminate.
  - injection E as -> E. f_equal. auto.
Qed.
Lemma insert_name_perm : forall x l, Permutation (insert_name x l) (x :: l).
Proof. induction l as [|y l IH]; cbn; auto. destruct String.compare; auto. eapply perm_trans; [apply perm_skip, IH|apply perm_swap]. Qed.
Lemma sort_names_perm : forall l, Permutation (sort_names l) l.
Proof. induction l as [|x l IH]; cbn; auto. eapply perm_trans; [apply insert_name_perm|]. auto. Qed.
Lemma insert_name_rising : forall x l, ~ In x l -> rising l -> rising (insert_name x l).
Proof.
  intros x l N R. induction R as [|y l F R IH]; cbn [insert_name]; [repeat constructor|].
  change (ident_name x) with (in_quotes x). change (ident_name y) with (in_quotes y). destruct (String.compare (in_quotes x) (in_quotes y)) eqn:E.
  - apply String.compare_eq_iff in E. apply quotes_eq in E. subst. destruct N. now left.
  - constructor; [|constructor; auto]. constructor; [exact E|]. eapply Forall_impl; [|exact F]. intros z Z. exact (string_lt_trans _ _ _ E Z).
  - constructor; [|apply IH; intros I; apply N; now right]. rewrite Forall_forall in *. intros z I.
    apply (Permutation_in z (insert_name_perm x l)) in I. destruct I as [<-|I]; auto. rewrite String.compare_antisym, E. reflexivity.
Qed.
Lemma sort_names_rising : forall l, NoDup l -> rising (sort_names l).
Proof.
  induction 1 as [|x l N D IH]; cbn; [constructor|]. apply insert_name_rising; [|exact IH]. intros I. apply N. exact (Permutation_in x (sort_names_perm l) I).
Qed.
Lemma rising_filter : forall f l, rising l -> rising (filter f l).
Proof.
  intros f l R. induction R as [|x l F R IH]; cbn; [constructor|]. destruct (f x); [|exact IH]. constructor; [|exact IH].
  rewrite Forall_forall in *. intros y I. apply filter_In in I as [I _]. auto.
Qed.

(** * The text *)
Definition filled (x : string) : bool := negb (String.eqb x "").
Lemma app_assoc_s : forall a b c : string, ((a ++ b) ++ c = a ++ (b ++ c))%string.
Proof. induction a as [|x a IH]; intros b c; cbn; [reflexivity|now rewrite IH]. Qed.
Lemma body_spells : forall l, spells (filter filled l) (fold_right (fun x s => (if String.eqb x "" then "" else ident_line x) ++ s)%string ""%string l).
Proof.
  induction l as [|x l IH]; cbn [filter fold_right]; [constructor|]. unfold filled at 1. destruct (String.eqb x ""); cbn [negb]; [exact IH|].
  unfold ident_line. rewrite !app_assoc_s. exact (spells_cons x _ _ IH).
Qed.
Theorem idents_list : forall fuel n text, height n < fuel -> idents fuel n = COk text ->
  exists names body, text = ("const (" ++ line_break ++ body ++ ")" ++ line_break)%string /\ spells names body /\ rising names /\
    forall x, In x names <-> x <> "" /\ given n x.
Proof.
  intros fuel n text H R. unfold idents in R. destruct (walk idents_enter idents_exit fuel KGrammar n []) as [[s st]| |] eqn:W; try discriminate.
  cbn [cbind] in R. injection R as <-. destruct (idents_walk _ _ _ _ _ _ H W) as (evs & T & ->).
  set (st := fold_left act_names evs []). exists (filter filled (sort_names st)). eexists. split; [reflexivity|]. split; [apply body_spells|].
  split; [apply rising_filter, sort_names_rising, acts_nodup; constructor|].
  assert (G : forall x, In x st <-> given n x).
  { intros x. unfold st. rewrite acts_in. split.
    - intros [[]|(e & I & A)]. exists evs. split; [exact T|]. destruct e as [k m|k m]; [|destruct A]. destruct k; try contradiction A.
      + right. destruct A as [A B]. eauto.
      + left. eauto.
    - intros (evs' & T' & D). rewrite (tour_det _ _ _ _ T _ T') in D. right. destruct D as [(m & I & A)|(NE & m & I & A)].
      + exists (Enter KProd m). auto.
      + exists (Enter KNamed m). split; [exact I|]. split; auto. }
  intros x. rewrite filter_In, <- G. unfold filled. split.
  - intros [I F]. split; [|exact (Permutation_in x (sort_names_perm st) I)]. intros ->. discriminate F.
  - intros [NE I]. split; [exact (Permutation_in x (Permutation_sym (sort_names_perm st)) I)|]. destruct (String.eqb_spec x ""); [congruence|reflexivity].
Qed.

(** * No constants *)
Lemma quoted_first : forall b x ps e, pieces (InQuoted x) b = Some (ps, Between e) -> exists s ps', ps = Quoted s :: ps'.
Proof.
  induction b as [|c b IH]; intros x ps e P; cbn [pieces] in P; [discriminate|]. cbn [step] in P. destruct (Ascii.eqb c dquote).
  - destruct (pieces (Between true) b) as [[ps' s']|]; [|discriminate]. injection P as <- _. cbn. eauto.
  - destruct (bare_char c); [|discriminate]. destruct (pieces (InQuoted (c :: x)) b) as [[ps' s']|] eqn:E; [|discriminate]. injection P as <- ->. exact (IH _ _ _ E).
Qed.
Lemma const_first : forall b, pieces (Between false) (bs "const (" ++ nl :: dquote :: b) =
  match pieces (InQuoted []) b with Some (ps, s) => Some (Name (bs "const") :: Mark LPar :: ps, s) | None => None end.
Proof.
  intros b. cbv [bs list_ascii_of_string app nl dquote]. cbn [pieces step begin then_begin].
  destruct (pieces (InQuoted []) b) as [[ps s]|] eqn:E; cbv -[pieces bs] in E |- *; rewrite ?E; reflexivity.
Qed.
Theorem never_constants : forall names body l, spells names body -> const_group (bs ("const (" ++ line_break ++ body ++ ")" ++ line_break)%string) l -> names = [].
Proof.
  intros names body l SP (ps & T & C). destruct SP as [|x names s SP]; [reflexivity|]. exfalso. unfold go_tokens in T.
  match type of T with context [pieces (Between false) ?b] => assert (E : exists rest, b = bs "const (" ++ nl :: dquote :: rest) by (eexists; reflexivity) end.
  destruct E as [rest E]. rewrite E, const_first in T. clear E. destruct (pieces (InQuoted []) rest) as [[rs [e| | | |]]|] eqn:Q; try discriminate.
  injection T as ->. destruct (quoted_first _ _ _ _ Q) as (v & rs' & ->). inversion C.
Qed.
