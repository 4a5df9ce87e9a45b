(** The routes that the check for recursion names, and the texts of validation as a whole. *)
From Verif Require Import Base Scanner Syntax Engine Resolve Ast AstProofs WbnfAst Walker WalkerSpec WalkerProofs Build Recursion RecursionSpec RecursionProofs Validate
  ValidSpec ValidProofs NumSpec Treeview TreeviewProofs Messages MessagesSpec MessagesProofs MessagesText.
Local Open Scope list_scope.

(** ** Names in routes *)
Section Names.
  Variables (P : string -> Prop) (grow : nat -> nat) (ord : list string -> list string -> list string) (g : graph).
  Hypothesis P_empty : P ""%string.
  Hypothesis ordered : forall p l, Permutation (ord p l) l.
  Hypothesis nexts : forall path k, In k (next g path) -> P k.
  Definition all_cells (h : heap) : Prop := Forall (Forall P) h.
  Lemma set_nth_forall : forall A (Q : A -> Prop) i x l, Q x -> Forall Q l -> Forall Q (set_nth i x l).
  Proof. intros A Q i x l QX. revert i. induction l as [|y l IH]; intros i F; [destruct i; constructor|]. inversion F; subst. destruct i; cbn [set_nth]; constructor; auto. Qed.
  Lemma cells_filled : forall h a, all_cells h -> Forall P (cells h a).
  Proof. intros h a F. unfold cells. destruct (nth_in_or_default a h []) as [I| ->]; [|constructor]. eapply Forall_forall in F; eauto. Qed.
  Lemma read_filled : forall h s, all_cells h -> Forall P (read h s).
  Proof. intros h s F. unfold read. pose proof (cells_filled h (s_arr s) F) as C. rewrite <- (firstn_skipn (s_len s)) in C. apply Forall_app in C. tauto. Qed.
  Lemma append_filled : forall h s x s' h', all_cells h -> P x -> append1 grow h s x = (s', h') -> all_cells h'.
  Proof.
    intros h s x s' h' F PX A. unfold append1 in A. destruct (Nat.ltb _ _); injection A as _ <-.
    - apply set_nth_forall; auto. apply set_nth_forall; auto. now apply cells_filled.
    - apply Forall_app. split; auto. constructor; [|constructor]. apply Forall_app. split; [apply Forall_app; split; [now apply read_filled|auto]|].
      apply Forall_forall. intros y Y. apply repeat_spec in Y. now subst.
  Qed.
  Lemma find_filled : forall fuel path seen cur h ps h', P (last path ""%string) -> all_cells h -> find_paths grow ord g fuel path seen cur h = Some (ps, h') -> all_cells h'.
  Proof.
    induction fuel as [|fuel IH]; intros path seen cur h ps h' PL F H; [discriminate|]. cbn [find_paths] in H.
    assert (Q : forall ks cur pos h ps h', (forall k, In k ks -> P k) -> all_cells h ->
      paths_loop grow (find_paths grow ord g fuel) path seen cur ks pos h = Some (ps, h') -> all_cells h').
    { induction ks as [|k ks IHk]; intros cur0 pos h0 ps0 h1 PK F0 L; cbn [paths_loop] in L; [injection L as _ <-; auto|]. destruct (mem k seen).
      - destruct (append1 grow h0 cur0 k) as [p h2] eqn:A. eapply IHk; [| |exact L]; [intros z Z; apply PK; now right|]. eapply append_filled; [exact F0| |exact A]. apply PK. now left.
      - destruct (find_paths _ _ _ _ (path ++ [k]) _ _ _) as [[ps1 h2]|] eqn:A; [|discriminate]. eapply IHk; [| |exact L]; [intros z Z; apply PK; now right|].
        eapply IH; [|exact F0|exact A]. rewrite last_last. apply PK. now left. }
    destruct (String.eqb (last path ""%string) ""%string).
    - eapply Q; [| |exact H]; auto. intros k I. apply (nexts path). eapply Permutation_in; [apply ordered|exact I].
    - destruct (append1 grow h cur (last path ""%string)) as [c1 h1] eqn:A. eapply Q; [| |exact H]; [intros k I; apply (nexts path); eapply Permutation_in; [apply ordered|exact I]|].
      eapply append_filled; [exact F|exact PL|exact A].
  Qed.
End Names.

Lemma graph_nexts : forall d g ks fuel, Permutation ks (keys d) -> walk_rules fuel d ks = Some g -> forall path k, In k (next g path) -> In k (graph_names d).
Proof.
  intros d g ks fuel K W path k H. assert (NK : incl ks (graph_names d)) by (intros x X; apply in_or_app; left; eapply Permutation_in; eauto).
  pose proof (walk_rules_names _ _ _ _ NK W) as N. apply walk_rules_grown in W as [W1 W2]. unfold next in H. destruct (rev path) as [|x r].
  - apply N. now apply has_true.
  - destruct (lookup x g) as [l|] eqn:E; [|contradiction]. destruct (W2 x) as (l' & A & B & C); [apply has_lookup; eauto|]. apply N, C. congruence.
Qed.
Lemma route_names : forall rt d routes, (forall p l, Permutation (rt_ord rt p l) l) -> Permutation (rt_keys rt d) (keys d) -> bad_routes rt d = Some routes ->
  forall r x, In r routes -> In x r -> In x (graph_names d) \/ x = ""%string.
Proof.
  intros rt d routes O K H r x R X. unfold bad_routes in H. destruct (walk_rules _ _ _) as [g|] eqn:W; [|discriminate].
  destruct (find_paths _ _ _ _ _ _ _ _) as [[ps h]|] eqn:F; [|discriminate]. injection H as <-. apply in_map_iff in R as (p & <- & _).
  assert (FL : all_cells (fun x => In x (graph_names d) \/ x = ""%string) h).
  { eapply find_filled; [| | | | |exact F]; auto; [|constructor]. intros path k I. left. eapply graph_nexts; eauto. }
  pose proof (read_filled _ h p FL) as Q. eapply Forall_forall in Q; eauto.
Qed.

(** ** Routes when every append copies *)
Section Copying.
  Variables (ord : list string -> list string -> list string) (g : graph).
  Hypothesis ordered : forall p l, Permutation (ord p l) l.
  (** The empty name leads nowhere. *)
  Hypothesis no_empty : lookup ""%string g = None \/ lookup ""%string g = Some [].
  Definition fits (h : heap) (s : slice) (l : list string) : Prop := s_len s = s_cap s /\ read h s = l /\ (s_arr s < length h \/ s_cap s = 0) /\ length l = s_len s.
  Lemma fits_later : forall h s l more, fits h s l -> fits (h ++ more) s l.
  Proof.
    intros h s l more (A & B & [C|C] & D); split; auto; split.
    - rewrite <- B. unfold read, cells. now rewrite app_nth1.
    - split; auto. left. rewrite app_length. lia.
    - rewrite <- B. unfold read. rewrite A, C. reflexivity.
    - auto.
  Qed.
  Lemma append_fits : forall h s l x s' h', fits h s l -> append1 S h s x = (s', h') -> exists more, h' = h ++ more /\ fits h' s' (l ++ [x]).
  Proof.
    intros h s l x s' h' (A & B & C & D) H. unfold append1 in H. rewrite A, Nat.ltb_irrefl in H. injection H as <- <-. eexists. split; [reflexivity|]. split; [reflexivity|]. cbn [s_len s_cap s_arr]. split; [|split].
    - rewrite B. unfold read, cells. cbn [s_len s_arr]. rewrite nth_middle. rewrite <- A, Nat.sub_diag. cbn [repeat]. rewrite app_nil_r. apply firstn_all2. rewrite app_length. cbn. lia.
    - left. rewrite app_length. cbn. lia.
    - rewrite app_length. cbn. lia.
  Qed.
  Definition route (p : list string) (r : list string) : Prop := exists k, r = p ++ [k] /\ gpath g p /\ NoDup p /\ In k p /\ gstep g p k.
  Lemma find_routes : forall fuel path seen cur h ps h',
    gpath g path -> NoDup path -> (forall k, In k seen <-> In k path) -> fits h cur (removelast path) -> (path <> [] -> last path ""%string <> ""%string) ->
    find_paths S ord g fuel path seen cur h = Some (ps, h') ->
    exists more, h' = h ++ more /\ Forall (fun s => exists p r, fits h' s r /\ route p r) ps.
  Proof.
    induction fuel as [|fuel IH]; intros path seen cur h ps h' P N SE FC NE H; [discriminate|]. cbn [find_paths] in H.
    assert (Q : forall ks cur pos h ps h', (forall k, In k ks -> gstep g path k) -> fits h cur path -> Forall (fun s => exists p r, fits h s r /\ route p r) pos ->
      paths_loop S (find_paths S ord g fuel) path seen cur ks pos h = Some (ps, h') -> exists more, h' = h ++ more /\ Forall (fun s => exists p r, fits h' s r /\ route p r) ps).
    { induction ks as [|k ks IHk]; intros cur0 pos h0 ps0 h1 PK F0 FP L; cbn [paths_loop] in L; [injection L as <- <-; exists []; rewrite app_nil_r; auto|].
      assert (KEEP : forall more, Forall (fun s => exists p r, fits (h0 ++ more) s r /\ route p r) pos).
      { intros more. eapply Forall_impl; [|exact FP]. intros s (p & r & A & B). exists p, r. split; auto. now apply fits_later. }
      destruct (mem k seen) eqn:M.
      - destruct (append1 S h0 cur0 k) as [p h2] eqn:A. destruct (append_fits _ _ _ _ _ _ F0 A) as (more & -> & FA).
        edestruct IHk as (more2 & -> & R); [intros z Z; apply PK; right; exact Z|apply (fits_later _ _ _ more F0)| |exact L|].
        + apply Forall_app. split; auto. constructor; [|constructor]. exists path, (path ++ [k]). split; auto. exists k. split; auto. split; auto. split; auto. split; [apply SE, mem_true; auto|apply PK; now left].
        + exists (more ++ more2). rewrite app_assoc. auto.
      - destruct (find_paths _ _ _ _ (path ++ [k]) _ _ _) as [[ps1 h2]|] eqn:A; [|discriminate]. apply mem_false in M.
        destruct (String.eqb_spec k ""%string) as [->|NK].
        { (* the empty name leads nowhere *)
          assert (E : ps1 = [] /\ h2 = h0).
          { destruct fuel as [|f]; [discriminate|]. cbn [find_paths] in A. rewrite last_last in A. cbn [String.eqb] in A.
            assert (Z : next g (path ++ [""%string]) = []) by (unfold next; rewrite rev_app_distr; cbn [rev app]; destruct no_empty as [-> | ->]; auto).
            rewrite Z in A. assert (Y : ord (path ++ [""%string]) [] = []) by (apply Permutation_nil; apply Permutation_sym, ordered). rewrite Y in A. cbn [paths_loop] in A. injection A as <- <-. auto. }
          destruct E as [-> ->]. rewrite app_nil_r in L. eapply IHk; eauto. intros z Z. apply PK. now right. }
        destruct (IH (path ++ [k]) (with_ k seen) cur0 h0 ps1 h2) as (more & -> & R); auto.
        + constructor; auto. apply PK. now left.
        + rewrite <- (rev_involutive (path ++ [k])). apply NoDup_rev. rewrite rev_app_distr. simpl. constructor; [rewrite <- in_rev, <- SE; auto|now apply NoDup_rev].
        + intros k0. rewrite with_In, in_app_iff, SE. simpl. intuition congruence.
        + rewrite removelast_last. exact F0.
        + intros _. now rewrite last_last.
        + edestruct IHk as (more2 & -> & R2); [intros z Z; apply PK; right; exact Z|apply (fits_later _ _ _ more F0)| |exact L|].
          * apply Forall_app. split; auto.
          * exists (more ++ more2). rewrite app_assoc. auto. }
    assert (KS : forall k, In k (ord path (next g path)) -> gstep g path k).
    { intros k I. apply next_gstep. eapply Permutation_in; [apply ordered|exact I]. }
    destruct (String.eqb_spec (last path ""%string) ""%string) as [EL|EL].
    - destruct path as [|x path]; [|exfalso; apply NE; [discriminate|exact EL]]. eapply Q; eauto.
    - destruct (append1 S h cur (last path ""%string)) as [c1 h1] eqn:A. destruct (append_fits _ _ _ _ _ _ FC A) as (more & -> & FA).
      assert (PN : path <> []) by (intros ->; now apply EL). rewrite <- app_removelast_last in FA by auto.
      destruct (Q _ _ _ _ _ _ KS FA (Forall_nil _) H) as (more2 & -> & R). exists (more ++ more2). rewrite app_assoc. auto.
  Qed.
End Copying.

Lemma routes_cycle : forall rt d routes, (forall p l, Permutation (rt_ord rt p l) l) -> Permutation (rt_keys rt d) (keys d) -> rt_grow rt = S -> ~ In ""%string (keys d) ->
  bad_routes rt d = Some routes -> forall r, In r routes -> exists a k c, r = a ++ (k :: c) ++ [k] /\ chain d k (k :: c) k /\ NoDup (a ++ k :: c).
Proof.
  intros rt d routes O K G NE H r R. unfold bad_routes in H. rewrite G in H. destruct (walk_rules _ _ _) as [g|] eqn:W; [|discriminate].
  destruct (find_paths _ _ _ _ _ _ _ _) as [[ps h]|] eqn:F; [|discriminate]. injection H as <-. apply in_map_iff in R as (s & <- & I). apply filter_In in I as [I _].
  assert (EMPTY : lookup ""%string g = None \/ lookup ""%string g = Some []).
  { destruct (lookup ""%string g) as [l|] eqn:E; auto. right. f_equal. pose proof (walk_rules_grown _ _ _ _ W) as [_ W2]. destruct (W2 ""%string) as (l' & A & B & _); [apply has_lookup; eauto|].
    rewrite E in A. injection A as <-. destruct l as [|y l]; auto. exfalso. assert (T : In y (targets d ""%string)) by (apply B; now left). unfold targets in T.
    destruct (lookup ""%string d) as [t|] eqn:L; [|contradiction]. apply NE. apply has_true. apply has_lookup. eauto. }
  assert (FN : fits [] nil_slice (removelast [])) by (split; [reflexivity|]; split; [reflexivity|]; split; [now right|reflexivity]).
  destruct (find_routes (rt_ord rt) g O EMPTY (graph_fuel d) [] [] nil_slice [] ps h) as (more & _ & Q); auto.
  - constructor.
  - constructor.
  - tauto.
  - eapply Forall_forall in Q as (p & r & (_ & RD & _) & k & -> & P & N & IK & ST); [|exact I]. rewrite RD. apply in_split in IK as (a & c & ->).
    exists a, k, c. split; [rewrite <- app_assoc; reflexivity|]. split; auto. eapply gpath_chain; eauto.
Qed.

(** ** Validation *)
Lemma join_plain : forall sep xs, ~ In "%"%char sep -> Forall (fun x => ~ In "%"%char x) xs -> ~ In "%"%char (join_sep sep xs).
Proof.
  intros sep xs NS. induction xs as [|x xs IH]; intros F; [intros []|]. inversion F; subst. cbn [join_sep]. destruct xs; auto. rewrite !in_app_iff. intros [I|[I|I]]; auto. now apply IH.
Qed.
Lemma reporter_steps : forall E err ms (M : string -> anode -> Prop) evs r r', (forall x m, lookup x ms = Some m <-> M x m) -> (forall k n, In (Enter k n) evs -> node_printable n) ->
  steps (reporter_ops E err ms) evs r = COk r' -> added r r' (fun t => exists k n, In (Enter k n) evs /\ complaint E err (r_known r) M k n t).
Proof.
  intros E err ms M evs. induction evs as [|[k n|k n] evs IH]; intros r r' HM PR H; cbn [steps] in H.
  - injection H as <-. apply added_none. intros t (k & n & [] & _).
  - apply cbind_inv in H as ([s r1] & A & H). apply (step_texts _ _ _ M) in A as (_ & K1 & new1 & ts1 & M1 & F1 & L1); auto; [|apply (PR k n); now left].
    destruct (IH _ _ HM (fun k n I => PR k n (or_intror I)) H) as (K2 & new2 & ts2 & M2 & F2 & L2). split; [congruence|]. exists (new1 ++ new2), (ts1 ++ ts2).
    split; [rewrite M2, M1; now rewrite app_assoc|]. split; [now apply Forall2_app|]. intros t. rewrite in_app_iff, L1, L2, K1. split.
    + intros [X|(k' & n' & I & X)]; [exists k, n; split; [now left|auto]|exists k', n'; split; [now right|auto]].
    + intros (k' & n' & [EQ|I] & X); [injection EQ as <- <-; auto|right; eauto].
  - destruct (IH _ _ HM (fun k n I => PR k n (or_intror I)) H) as (K2 & new2 & ts2 & M2 & F2 & L2). split; auto. exists new2, ts2. split; auto. split; auto. intros t. rewrite L2. split.
    + intros (k' & n' & I & X). exists k', n'. split; [now right|auto].
    + intros (k' & n' & [EQ|I] & X); [discriminate|eauto].
Qed.
Lemma all_texts_tell : forall ms ts, Forall2 tells ms ts -> all_texts ms = COk (Some ts).
Proof. induction 1 as [|m t ms ts T _ IH]; cbn [all_texts]; auto. unfold tells in T. rewrite T, IH. reflexivity. Qed.

Lemma same_length : forall A B (R : A -> B -> Prop) l m, Forall2 R l m -> length m = length l.
Proof. induction 1; cbn [length]; congruence. Qed.

Theorem texts_of_validation : forall E err rt fuel n f xs, (forall p l, Permutation (rt_ord rt p l) l) -> (forall d, Permutation (rt_keys rt d) (keys d)) ->
  validate_messages E err rt fuel n = COk f -> names n xs -> printable n ->
  (forall d x, collect_dangers fuel n = COk d -> In x (graph_names d) -> no_percent x) -> NoDup xs ->
  exists d routes ts, collect_dangers fuel n = COk d /\ bad_routes rt d = Some routes /\ failure_text f = COk (Some (bracketed ts)) /\ length ts = length (messages f) /\
    forall t, In t ts <-> (exists k m, enters closed n k m /\ complaint E err xs (macro_called n) k m t) \/ routes <> [] /\ t = cycle_text routes.
Proof.
  intros E err rt fuel n f xs O K H N PR NP ND. unfold validate_messages in H. apply cbind_inv in H as (d & D & H). apply find_defined in D as (ys & N' & DU & REST).
  rewrite <- (names_det _ _ _ N N') in *. destruct (d_dupes d) as [|y l] eqn:DD; [|apply DU in ND; discriminate]. destruct (REST eq_refl) as (NM & L).
  apply cbind_inv in H as (r & R & H). apply cbind_inv in H as (cs & C & H). injection H as <-.
  unfold run_reporter in R. apply cbind_inv in R as ([s r1] & W & R). injection R as ->.
  destruct (walk_steps (reporter_ops E err (d_macros d)) closed) with (fuel := fuel) (k := KGrammar) (n := n) (st := mkReporter (d_names d) []) (s := s) (st' := r) as (_ & evs & T & S1); auto.
  { intros k m st s0 st' A. apply ops_erase in A. apply (validator_step _ _ (fun x m => lookup x (d_macros d) = Some m)) in A as (A & _); auto. tauto. }
  { intros k m. destruct k; cbn; congruence. }
  apply (reporter_steps _ _ _ (macro_called n)) in S1 as (_ & new & ts & M & F & LT); auto.
  2:{ intros k m I. apply (PR k m). exists evs. auto. }
  cbn [r_msgs r_known app] in M, LT. rewrite NM in LT. unfold cycle_messages in C. apply cbind_inv in C as (g & CD & C). destruct (bad_routes rt g) as [routes|] eqn:BR; [|discriminate].
  assert (LE : forall t, In t ts <-> exists k m, enters closed n k m /\ complaint E err xs (macro_called n) k m t).
  { intros t. rewrite LT. split; [intros (k & m & I & X); exists k, m; split; auto; exists evs; auto|]. intros (k & m & (evs' & T' & I) & X). exists k, m. split; auto. now rewrite <- (tour_det _ _ _ _ T _ T'). }
  assert (CT : Forall2 tells cs (match routes with [] => [] | _ => [cycle_text routes] end)).
  { destruct routes as [|q routes]; injection C as <-; constructor; [|constructor]. apply plain_text. unfold cycle_text. rewrite !in_app_iff.
    intros [I|[I|I]]; try (revert I; apply percent_free; reflexivity). revert I. apply join_plain; [apply percent_free; reflexivity|]. apply Forall_forall. intros x X. apply in_map_iff in X as (p & <- & IP).
    unfold route_text. apply join_plain; [apply percent_free; reflexivity|]. apply Forall_forall. intros z Z. apply in_map_iff in Z as (w & <- & IW).
    destruct (route_names rt g _ O (K g) BR p w IP IW) as [I| ->]; [exact (NP _ _ CD I)|intros []]. }
  exists g, routes, (ts ++ match routes with [] => [] | _ => [cycle_text routes] end). split; auto. split; auto. cbn [failure_text messages]. rewrite M.
  pose proof (Forall2_app F CT) as FA. rewrite (all_texts_tell _ _ FA). split; [reflexivity|]. split; [eapply same_length; exact FA|]. intros t. rewrite in_app_iff, LE.
  destruct routes as [|q routes].
  - split; [intros [X|[]]; auto|intros [X|[X _]]; [auto|congruence]].
  - split; [intros [X|[<-|[]]]; [auto|right; split; [discriminate|reflexivity]]|intros [X|[_ ->]]; [auto|right; now left]].
Qed.

(** ** Names that are defined again *)
Lemma redefined_same : forall xs ys a b, (forall x, In x a <-> In x b) -> redefined a xs ys -> redefined b xs ys.
Proof.
  intros xs ys a b E A. revert b E. induction A as [a|a x xs ys I A IH|a x xs ys I A IH]; intros b E; [constructor|apply redefined_old|apply redefined_new].
  - now apply E.
  - apply IH. intros y. cbn [In]. now rewrite E.
  - now rewrite <- E.
  - apply IH. intros y. cbn [In]. now rewrite E.
Qed.
Lemma add_again : forall x d xs ys zs, redefined (d_names (add_rule x d)) xs ys -> zs = d_dupes (add_rule x d) ++ ys ->
  exists ws, redefined (d_names d) (x :: xs) ws /\ zs = d_dupes d ++ ws.
Proof.
  intros x d xs ys zs A ->. unfold add_rule in *. cbn [d_names d_dupes] in *.
  assert (B : redefined (x :: d_names d) xs ys) by (eapply redefined_same; [|exact A]; intros y; rewrite with_In; cbn [In]; intuition congruence).
  destruct (mem x (d_names d)) eqn:M.
  - exists (x :: ys). split; [apply redefined_old; auto; now apply mem_true|]. now rewrite <- app_assoc.
  - exists ys. split; auto. apply redefined_new; auto. now apply mem_false.
Qed.
Lemma dupes_again : forall evs d d', steps defining evs d = COk d' -> exists xs ys, titled evs xs /\ redefined (d_names d) xs ys /\ d_dupes d' = d_dupes d ++ ys.
Proof.
  induction evs as [|e evs IH]; intros d d' H; cbn [steps] in H; [injection H as <-; exists [], []; rewrite app_nil_r; repeat split; constructor|]. destruct e as [k n|k n].
  - apply cbind_inv in H as ([s d1] & D & H). destruct (IH _ _ H) as (xs & ys & T & A & Q). destruct k; cbn [defining] in D;
      try (injection D as _ <-; exists xs, ys; split; [apply titled_other; auto; discriminate|auto]; fail); apply cbind_inv in D as (y & SY & D); injection D as _ <-; apply says_or_none_one in SY.
    all: destruct (add_again y d xs ys (d_dupes d')) as (ws & A' & Q'); auto; exists (y :: xs), ws; split; auto.
    + now apply titled_macro.
    + now apply titled_prod.
  - destruct (IH _ _ H) as (xs & ys & T & A & Q). exists xs, ys. split; auto. apply titled_other; auto; discriminate.
Qed.
Lemma defined_again : forall fuel n d, find_defined_rules fuel n = COk d -> exists xs, names n xs /\ redefined [] xs (d_dupes d).
Proof.
  intros fuel n d H. unfold find_defined_rules in H. apply cbind_inv in H as ([s d'] & W & H). injection H as ->.
  change (walk defining (fun _ _ st => COk (None, st)) fuel KGrammar n (mkDefined [] [] []) = COk (s, d)) in W.
  destruct (walk_steps defining is_definition) with (fuel := fuel) (k := KGrammar) (n := n) (st := mkDefined [] [] []) (s := s) (st' := d) as (_ & evs & T & S1); auto.
  { apply defining_stops. }
  { intros k m. destruct k; cbn; congruence. }
  destruct (dupes_again _ _ _ S1) as (xs & ys & TI & A & Q). cbn [d_names d_dupes app] in *. exists xs. split; [exists evs; auto|]. now rewrite Q.
Qed.
Lemma again_in : forall a xs ys, redefined a xs ys -> forall y, In y ys -> In y xs.
Proof. induction 1 as [a|a x xs ys I A IH|a x xs ys I A IH]; cbn [In]; intros y Y; auto. destruct Y as [->|Y]; auto. Qed.
Theorem text_of_duplicates : forall E err rt fuel n f xs, validate_messages E err rt fuel n = COk f -> names n xs -> ~ NoDup xs -> (forall x, In x xs -> no_percent x) ->
  exists ys, redefined [] xs ys /\ failure_text f = COk (Some (bs "the following rule(s) are defined multiple times: [" ++ join_sep (bs " ") (map bs ys) ++ bs "]")).
Proof.
  intros E err rt fuel n f xs H N ND NP. unfold validate_messages in H. apply cbind_inv in H as (d & D & H). destruct (defined_again _ _ _ D) as (xs' & N' & A). rewrite <- (names_det _ _ _ N N') in A.
  apply find_defined in D as (xs2 & N2 & DU & _). rewrite <- (names_det _ _ _ N N2) in DU. destruct (d_dupes d) as [|y l]; [exfalso; apply ND, DU; auto|]. injection H as <-. exists (y :: l). split; auto.
  cbn [failure_text]. replace (bs "the following rule(s) are defined multiple times: [" ++ join_sep (bs " ") (map bs (y :: l)) ++ bs "]") with (duplicates_text (y :: l)) by reflexivity.
  apply plain_text. unfold duplicates_text, bracketed. rewrite !in_app_iff. intros [I|[I|[I|I]]]; try (revert I; apply percent_free; reflexivity). revert I. apply join_plain; [apply percent_free; reflexivity|].
  apply Forall_forall. intros z Z. apply in_map_iff in Z as (w & <- & IW). apply NP. eapply again_in; eauto.
Qed.

(** ** Printable trees, by computation *)
Definition filled_token (m : anode) : bool := match node_scanner m with Some s => match sstring s with Some [] => false | _ => true end | None => true end.
Definition printable_node (m : anode) : bool :=
  forallb (fun name => match labelled name m with x :: _ => filled_token x | [] => true end) ["IDENT"; "RE"; "name"]%string &&
  forallb filled_token (labelled "args" m) &&
  match string_of (one "name" m) with COk x => negb (has_percent (bs x)) | _ => true end.
Definition recording (k : kind) (n : anode) (st : bool) : cres (option stopper * bool) :=
  COk (if closed k n then Some NodeExiter else None, st && printable_node n)%bool.
Lemma recording_all : forall evs st, steps recording evs st = COk true -> forall k n, In (Enter k n) evs -> printable_node n = true.
Proof.
  assert (OFF : forall evs, steps recording evs false = COk true -> False).
  { induction evs as [|[k n|k n] evs IH]; cbn [steps]; intros H; [discriminate| |auto]. unfold recording at 1 in H. cbn [cbind andb] in H. auto. }
  induction evs as [|[k0 n0|k0 n0] evs IH]; intros st H k n I; [destruct I| |]; cbn [steps] in H.
  - unfold recording at 1 in H. cbn [cbind] in H. destruct (st && printable_node n0)%bool eqn:E; [|destruct (OFF _ H)]. destruct I as [EQ|I]; [|eauto].
    injection EQ as <- <-. now apply andb_prop in E.
  - destruct I as [EQ|I]; [discriminate|eauto].
Qed.
Lemma printable_check : forall fuel n, cbind (walk recording (fun _ _ st => COk (None, st)) fuel KGrammar n true) (fun '(_, b) => COk b) = COk true -> printable n.
Proof.
  intros fuel n H. apply cbind_inv in H as ([s b] & W & H). injection H as ->.
  destruct (walk_steps recording closed) with (fuel := fuel) (k := KGrammar) (n := n) (st := true) (s := s) (st' := true) as (_ & evs & T & S1); auto.
  { intros k m st s0 st' A. unfold recording in A. injection A as <- _. reflexivity. }
  { intros k m. destruct k; cbn; congruence. }
  intros k m (evs' & T' & I). rewrite (tour_det _ _ _ _ T _ T') in I. apply (recording_all _ _ S1) in I. unfold printable_node in I. apply andb_prop in I as [I I3]. apply andb_prop in I as [I1 I2].
  assert (Q : forall m s x, filled_token m = true -> located_at m s x -> x <> []).
  { intros m0 s0 x F [A B] ->. unfold filled_token in F. rewrite A, B in F. discriminate. }
  split; [|split].
  - intros name s0 x IN (m0 & more & L & AT). eapply forallb_forall in I1; [|exact IN]. rewrite L in I1. eauto.
  - intros a s0 x IN AT. eapply forallb_forall in I2; [|exact IN]. eauto.
  - intros x SX. apply says_or_none_one in SX. rewrite SX in I3. apply percent_free. now apply negb_true_iff.
Qed.
