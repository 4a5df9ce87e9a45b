(** Which reports a parse can make. *)
From Verif Require Import Base Scanner ScannerSpec Syntax Engine Resolve Compile Parse PegSpec CompileProofs TopProofs UnparseProofs FlowSpec FlowProofs Gotree Report ReportSpec ReportProofs.
Local Open Scope list_scope.

Lemma Forall2_back : forall {A B} (R : A -> B -> Prop) l l', Forall2 R l l' -> forall y, In y l' -> exists x, In x l /\ R x y.
Proof.
  induction 1 as [|x y l l' H _ IH]; intros z I; [destruct I|]. destruct I as [<-|I]; [exists x; split; [left|]; auto|].
  destruct (IH z I) as (x' & P & Q). exists x'. split; [right|]; auto.
Qed.

Section Made.
  Variables foreign demand : Prop.
  Variable quote : bytes -> bytes.
  Variable c : config.
  Variable tok : bytes -> bytes -> Prop.
  Let why_ok := reason quote (cf_eng c) tok.
  (** Errors of others are there only if [foreign], errors that are their own causes only if [demand]. *)
  Inductive made : fault -> Prop :=
  | made_parse : forall rule msg cs, why_ok msg cs -> (In CSelf cs -> demand) -> (forall x, In (CErr x) cs -> made x) -> made (FParse rule msg cs)
  | made_rest : forall s, made (FUnconsumed s)
  | made_other : foreign -> made FOther.

  Lemma made_circular : forall x, made x -> circular x -> demand.
  Proof.
    intros x M (r & m & l & P & J). remember (FParse r m l) as w eqn:E. revert M E. induction P as [x|rule msg cs x w I P IH]; intros M ->.
    - inversion M; auto.
    - inversion M; subst. auto.
  Qed.
  Lemma made_foreign : forall x, made x -> part FOther x -> foreign.
  Proof.
    intros x M P. remember FOther as w eqn:E. revert M E. induction P as [x|rule msg cs x w I P IH]; intros M ->; inversion M; subst; auto.
  Qed.
  Lemma made_reason : forall x, made x -> forall rule msg cs, part (FParse rule msg cs) x -> why_ok msg cs.
  Proof.
    intros x M rule msg cs P. remember (FParse rule msg cs) as w eqn:E. revert M E. induction P as [x|r m l x w I P IH]; intros M ->; inversion M; subst; auto.
  Qed.
  Lemma settle_reason : forall s msg cs, why_ok msg cs -> why_ok msg (map (settle_cause s) cs).
  Proof.
    intros s msg cs [(x & H)|[H|[(w & re & a & o & -> & H)|[H|[H ->]]]]].
    - left. exists (settle s x). change (CErr (settle s x)) with (settle_cause s (CErr x)). now apply in_map.
    - right; left. change CSelf with (settle_cause s CSelf). now apply in_map.
    - right; right; left. destruct o as [o|]; [exists w, re, a, (Some o)|exists w, re, a, (Some s)]; split; auto.
    - right; right; right; left. auto.
    - do 4 right. auto.
  Qed.
  Lemma made_settle : forall s x, made x -> made (settle s x).
  Proof.
    intros s x M. induction M as [rule msg cs W D _ IH|r|]; cbn [settle]; constructor; auto using settle_reason.
    - intros I. apply in_map_iff in I as (z & E & I). destruct z as [w|w|a [s0|]| |f|]; try discriminate. auto.
    - intros x I. apply in_map_iff in I as (z & E & I). destruct z as [w|w|a [s0|]| |f|]; try discriminate. cbn in E. injection E as <-. auto.
  Qed.

  Fixpoint calm (p : parser) : Prop :=
    match p with
    | PRule _ _ | PLink _ | PRE _ _ _ | PREF _ _ | PExt _ => True
    | PS _ x re => tok x re
    | PSeq _ _ ps | POneof _ ps => (fix all (ps : list parser) : Prop := match ps with [] => True | p :: ps' => calm p /\ all ps' end) ps
    | PDelim _ _ _ _ p | PLook _ p | PCut p => calm p
    | PQuant _ mn _ p => (mn = 0 \/ demand) /\ calm p
    | PScoped rules p => calm p /\ (fix all (g : list (string * parser)) : Prop := match g with [] => True | kv :: g' => calm (snd kv) /\ all g' end) rules
    end.
  Lemma calm_list : forall ps, (fix all (ps : list parser) : Prop := match ps with [] => True | p :: ps' => calm p /\ all ps' end) ps <-> Forall calm ps.
  Proof. induction ps as [|p ps IH]; split; intros H; auto; [constructor; [apply H|apply IH, H]|inversion H; subst; split; [auto|apply IH; auto]]. Qed.
  Lemma calm_rules : forall g, (fix all (g : list (string * parser)) : Prop := match g with [] => True | kv :: g' => calm (snd kv) /\ all g' end) g <->
    Forall (fun kv => calm (snd kv)) g.
  Proof. induction g as [|p ps IH]; split; intros H; auto; [constructor; [apply H|apply IH, H]|inversion H; subst; split; [auto|apply IH; auto]]. Qed.
  Lemma calm_all : demand -> (forall x re, tok x re) -> forall p, calm p.
  Proof. intros D T. induction p using parser_ind'; cbn [calm]; auto; try (apply calm_list; auto); try (split; auto; apply calm_rules; auto). Qed.

  Hypothesis TOK : forall wrap x re, apply_wrap wrap x (group (quote_meta x)) = COk re -> tok x (anchor ++ re).
  (** No demanding repetition unless [demand]. *)
  Fixpoint mild (t : term) : Prop :=
    match t with
    | TRule _ | TS _ | TRE _ | TExtRef _ | TREF _ _ => True
    | TSeq ts | TOneof ts | TStack ts => (fix all (ts : list term) : Prop := match ts with [] => True | t :: ts' => mild t /\ all ts' end) ts
    | TDelim t sep _ _ _ => mild t /\ mild sep
    | TLookAhead t | TNamed _ t | TCut t => mild t
    | TQuant t mn _ => (mn = 0 \/ demand) /\ mild t
    | TScoped t g => mild t /\ (fix all (g : list (string * term)) : Prop := match g with [] => True | kv :: g' => mild (snd kv) /\ all g' end) g
    end.
  Lemma mild_list : forall ts, (fix all (ts : list term) : Prop := match ts with [] => True | t :: ts' => mild t /\ all ts' end) ts <-> Forall mild ts.
  Proof. induction ts as [|p ps IH]; split; intros H; auto; [constructor; [apply H|apply IH, H]|inversion H; subst; split; [auto|apply IH; auto]]. Qed.
  Lemma mild_rules : forall g, (fix all (g : list (string * term)) : Prop := match g with [] => True | kv :: g' => mild (snd kv) /\ all g' end) g <->
    Forall (fun kv => mild (snd kv)) g.
  Proof. induction g as [|p ps IH]; split; intros H; auto; [constructor; [apply H|apply IH, H]|inversion H; subst; split; [auto|apply IH; auto]]. Qed.
  Lemma undemanding_list : forall ts, (fix all (ts : list term) : Prop := match ts with [] => True | t :: ts' => undemanding t /\ all ts' end) ts <-> Forall undemanding ts.
  Proof. induction ts as [|p ps IH]; split; intros H; auto; [constructor; [apply H|apply IH, H]|inversion H; subst; split; [auto|apply IH; auto]]. Qed.
  Lemma undemanding_rules : forall g, (fix all (g : list (string * term)) : Prop := match g with [] => True | kv :: g' => undemanding (snd kv) /\ all g' end) g <->
    Forall (fun kv => undemanding (snd kv)) g.
  Proof. induction g as [|p ps IH]; split; intros H; auto; [constructor; [apply H|apply IH, H]|inversion H; subst; split; [auto|apply IH; auto]]. Qed.
  Lemma demand_mild : demand -> forall t, mild t.
  Proof. intros D. induction t using term_ind'; cbn [mild]; auto; try (apply mild_list; auto); try (split; auto; apply mild_rules; auto). Qed.
  Lemma undemanding_mild : forall t, undemanding t -> mild t.
  Proof.
    induction t using term_ind'; cbn [mild undemanding]; intros U; auto; try (destruct U; split; auto; fail).
    1-3: apply mild_list; apply undemanding_list in U; apply Forall_forall; intros x I; eapply Forall_forall in H; eauto; apply H; eapply Forall_forall in U; eauto.
    destruct U as [U1 U2]. split; auto. apply mild_rules. apply undemanding_rules in U2. apply Forall_forall. intros x I. eapply Forall_forall in H; eauto. apply H.
    eapply Forall_forall in U2; eauto.
  Qed.
  Lemma reg_calm : forall p, calm p -> calm (reg p).
  Proof. destruct p; auto. Qed.
  Lemma scoped_calm : forall rules p, Forall (fun kv => calm (snd kv)) rules -> calm p -> calm (scoped_result rules p).
  Proof.
    intros rules p R P. apply calm_rules in R as R'. destruct p; cbn [scoped_result]; try (split; auto; fail).
    destruct (lookup t rules) as [q|] eqn:L; auto. apply lookup_In in L. eapply Forall_forall in R; eauto. destruct q; try exact Logic.I; split; auto.
  Qed.
  (** [fine t]: compiled, it is calm. *)
  Let fine E (t : term) := forall wrap rule p, term_parser E t wrap rule = COk p -> calm p.
  Lemma table_calm : forall E wrap g rules, compile_rules (rule_fns E wrap g) = COk rules -> Forall (fun kv => fine E (snd kv)) g -> Forall (fun kv => calm (snd kv)) rules.
  Proof.
    intros E wrap g rules H F. unfold compile_rules in H. apply ctraverse_ok in H. apply Forall_forall. intros kv I.
    assert (X : exists x, In x (rule_fns E wrap g) /\ (let '(r, (t, f)) := x in
       cbind (chase (S (length (rule_fns E wrap g))) (rule_fns E wrap g) t f) (fun f' => cbind (f' r) (fun p => COk (r, p)))) = COk kv).
    { exact (Forall2_back _ _ _ H _ I). }
    destruct X as ((r & t & f) & J & X). unfold rule_fns in J. apply in_map_iff in J as ((r0 & t0) & Y & J). cbn in Y. injection Y as -> -> <-.
    apply cbind_ok in X as (f' & C & X). apply cbind_ok in X as (p & Q & X). injection X as <-. cbn.
    apply chase_ok in C as (t' & A & ->). assert (FT : fine E t').
    { eapply (alias_body_in (fine E)); eauto; [eapply Forall_forall in F; eauto; auto|]. intros r' u L. apply lookup_In in L. eapply Forall_forall in F; eauto. auto. }
    eapply FT; eauto.
  Qed.
  Lemma parts_calm : forall E wrap ts ps, Forall (fine E) ts ->
    ctraverse (fun x => cbind (term_parser E x wrap "") (fun p => COk (reg p))) ts = COk ps -> Forall calm ps.
  Proof.
    intros E wrap ts ps F H. apply ctraverse_ok in H. induction H as [|t p ts ps H _ IH]; auto. inversion F as [|? ? F1 F2]; subst. constructor; auto.
    apply cbind_ok in H as (q & Q & H). injection H as <-. apply reg_calm. eapply F1; eauto.
  Qed.
  Lemma term_calm : forall E t, mild t -> fine E t.
  Proof.
    intros E. induction t using term_ind'; cbn [mild]; intros U wrap rule p HP; cbn [term_parser] in HP; try discriminate.
    1-5: repeat match goal with
      | X : cbind _ _ = COk _ |- _ => let a := fresh "a" in let A := fresh "A" in apply cbind_ok in X as (a & A & X)
      end; injection HP as <-; try exact Logic.I.
    { cbn [calm]. unfold must_compile in *. match goal with X : (if ?b then COk _ else CPanic) = COk _ |- _ => destruct b; [injection X as <-|discriminate X] end. eapply TOK; eauto. }
    - apply cbind_ok in HP as (ps & A & HP). injection HP as <-. cbn [calm]. apply calm_list. apply mild_list in U.
      eapply parts_calm; [|exact A]. apply Forall_forall. intros x I. eapply Forall_forall in H; eauto. apply H. eapply Forall_forall in U; eauto.
    - apply cbind_ok in HP as (ps & A & HP). injection HP as <-. cbn [calm]. apply calm_list. apply mild_list in U.
      eapply parts_calm; [|exact A]. apply Forall_forall. intros x I. eapply Forall_forall in H; eauto. apply H. eapply Forall_forall in U; eauto.
    - destruct U as [U1 U2]. apply cbind_ok in HP as (p1 & A1 & HP). apply cbind_ok in HP as (p2 & A2 & HP). injection HP as <-.
      apply (IHt1 U1) in A1. apply (IHt2 U2) in A2. apply reg_calm in A1. apply reg_calm in A2. cbn [calm]. apply calm_list.
      apply Forall_app. split; [destruct cs; repeat constructor; auto|]. constructor; [cbn [calm]; repeat split; auto|]. destruct ce; repeat constructor; auto.
    - apply cbind_ok in HP as (p1 & A1 & HP). injection HP as <-. cbn [calm]. apply reg_calm. eapply IHt; eauto.
    - destruct U as [U1 U2]. apply cbind_ok in HP as (p1 & A1 & HP). injection HP as <-. cbn [calm]. split; auto. apply reg_calm. eapply IHt; eauto.
    - eapply IHt; eauto.
    - destruct U as [U1 U2]. apply mild_rules in U2. apply cbind_ok in HP as (rules & A & HP). apply cbind_ok in HP as (q & Q & HP). injection HP as <-.
      apply scoped_calm; [|eapply IHt; eauto]. eapply table_calm; [exact A|]. apply Forall_forall. intros x I. eapply Forall_forall in H; eauto. apply H.
      eapply Forall_forall in U2; eauto.
    - apply cbind_ok in HP as (q & Q & HP). injection HP as <-. cbn [calm]. eapply IHt; eauto.
  Qed.
  Lemma ref_undemanding : forall v t, term_from_ref_val v = Some t -> undemanding t.
  Proof.
    induction v using tree_ind'; intros t HT; cbn [term_from_ref_val] in HT.
    - match type of HT with obind ?m _ = _ => destruct m as [ts|] eqn:E; [|discriminate] end. cbn in HT. injection HT as <-. cbn [undemanding]. apply undemanding_list.
      revert ts E. induction H as [|v cs H _ IH]; intros ts E; [injection E as <-; auto|].
      destruct (term_from_ref_val v) as [t|] eqn:E1; [|discriminate]. cbn in E. match type of E with obind ?m _ = _ => destruct m as [ts'|] eqn:E2; [|discriminate] end.
      cbn in E. injection E as <-. constructor; auto.
    - destruct (sstring s); [|discriminate]. cbn in HT. injection HT as <-. exact Logic.I.
    - discriminate.
  Qed.

  Definition calm_env (e : env) : Prop := Forall (Forall (fun kv : string * parser => calm (snd kv))) e.
  Lemma link_calm : forall e r q e', calm_env e -> resolve_link e r = Some (q, e') -> calm q /\ calm_env e'.
  Proof.
    induction e as [|rules e IH]; intros r q e' C H; [discriminate|]. cbn in H. inversion C as [|? ? C1 C2]; subst. destruct (lookup r rules) as [p|] eqn:L; [|eauto].
    injection H as <- <-. split; auto. apply lookup_In in L. eapply Forall_forall in C1; eauto. auto.
  Qed.

  Hypothesis NX : forall s fn, lookup s (cf_ext c) = Some fn -> foreign.
  Hypothesis NE : forall e, cf_esc c = Some e -> foreign.
  Definition makes (x : option fault) : Prop := forall y, x = Some y -> made y.
  Lemma escape_makes : forall sc inp k cont, makes (cont tt) -> makes (escape_fault c sc inp k cont).
  Proof.
    intros sc inp k cont H. unfold escape_fault. destruct (cf_esc c) as [e|] eqn:E; auto.
    destruct (eat_regexp (cf_eng c) (esc_open e) inp 0); auto; intros y Y;
      destruct (with_escape _ _ _ _ _) as [[[]]]; try discriminate; injection Y as <-; constructor; eauto.
  Qed.
  Lemma one_makes : forall rule msg cs, why_ok msg cs -> (In CSelf cs -> demand) -> (forall x, In (CErr x) cs -> made x) -> makes (Some (FParse rule msg cs)).
  Proof. intros rule msg cs W A B y Y. injection Y as <-. constructor; auto. Qed.
  Lemma none_makes : makes None. Proof. discriminate. Qed.

  Section Loops.
    Variable run : parser -> scope -> scanner -> nat -> out.
    Variable why : parser -> scope -> scanner -> nat -> option fault.
    Variable iscut : parser -> bool.
    Hypothesis W : forall p sc inp k, calm p -> makes (why p sc inp k).
    Lemma settled_makes : forall x s, makes x -> makes (obind x (fun x => Some (settle s x))).
    Proof. intros [x|] s M; [|exact none_makes]. intros y Y. injection Y as <-. apply made_settle. auto. Qed.
    Lemma seq_makes : forall rule ps, Forall calm ps -> forall ids sc inp k, makes (seq_fault c run why iscut rule ids ps sc inp k).
    Proof.
      intros rule. induction 1 as [|p ps C _ IH]; intros ids sc inp k; cbn [seq_fault]; [exact none_makes|].
      destruct (run p sc inp k) as [[[t|e| |] inp'] k']; try exact none_makes.
      - destruct (iscut p); [destruct (replace_cut c true sc k') as [[[s z1] z2] k2]|]; apply IH.
      - destruct (is_fatal e); auto. specialize (W p sc inp k C). destruct (why p sc inp k) as [y|]; [|exact none_makes]. cbn [obind].
        apply one_makes; [left; exists y; left; auto|intros [X|[X|[]]]; discriminate|]. intros x [X|[X|[]]]; [|discriminate]. injection X as <-. auto.
    Qed.
    Lemma quant_makes : forall rule mn mx p, calm p -> (mn = 0 \/ demand) -> forall sc mycp fuel inp k n, makes (quant_fault run why fuel rule mn mx p sc mycp inp k n).
    Proof.
      intros rule mn mx p C D sc mycp.
      assert (E : forall n, makes (if Nat.leb mn n then None else Some (FParse rule (quant_message mn mx n) [CSelf; CCalls]))).
      { intros n. destruct (Nat.leb_spec mn n); [exact none_makes|]. apply one_makes; [right; left; left; auto|intros _; destruct D; auto; lia|intros x [X|[X|[]]]; discriminate]. }
      induction fuel as [|f IH]; intros inp k n; cbn [quant_fault]; (destruct (Nat.eqb mx 0 || Nat.ltb n mx)%bool; [|apply E]); [exact none_makes|].
      destruct (run p sc inp k) as [[[t|e| |] inp'] k']; try exact none_makes; auto.
      destruct (not_my_fatal e mycp); auto. apply settled_makes. auto.
    Qed.
    Lemma oneof_makes : forall rule sc mycp inp ps, Forall calm ps -> forall k errors, (forall y, In y errors -> exists x, y = CErr x /\ made x) ->
      makes (oneof_fault run why rule ps sc mycp inp k errors).
    Proof.
      intros rule sc mycp inp. induction 1 as [|p ps C _ IH]; intros k errors E; cbn [oneof_fault].
      - apply one_makes.
        + destruct errors as [|z errors]; [do 4 right; auto|]. left. destruct (E z (or_introl eq_refl)) as (x & -> & _). exists x. left. auto.
        + intros I. apply in_app_or in I as [I|[I|[]]]; [|discriminate]. destruct (E _ I) as (x & X & _). discriminate.
        + intros x I. apply in_app_or in I as [I|[I|[]]]; [|discriminate]. destruct (E _ I) as (x' & X & H). injection X as <-. auto.
      - destruct (run p sc inp k) as [[[t|e| |] inp'] k']; try exact none_makes.
        specialize (W p sc inp k C). destruct (why p sc inp k) as [y|]; [|exact none_makes]. cbn [obind].
        assert (M : made (settle inp' y)) by (apply made_settle; auto).
        destruct (not_my_fatal e mycp); [intros z Z; injection Z as <-; auto|]. apply IH. intros z I. apply in_app_or in I as [I|[<-|[]]]; eauto.
    Qed.
  End Loops.

  Lemma fault_made : forall show f e p sc inp k, calm_env e -> calm p -> makes (fault_of quote show c f e p sc inp k).
  Proof.
    intros show. induction f as [|f IH]; intros e p sc inp k CE CP; [exact none_makes|].
    assert (SELF : forall l, (forall y, In y l -> match y with CSelf | CErr _ => False | _ => True end) -> forall rule msg, why_ok msg l -> makes (Some (FParse rule msg l))).
    { intros l H rule msg W. apply one_makes; [exact W|intros I; now apply H in I|intros x I; now apply H in I]. }
    destruct p as [r t|r|r t re|r t re|r ids ps|r a cs ce p|r p|r mn mx p|r ps|i d|s|p|rules p]; cbn [fault_of]; cbn [calm] in CP; auto.
    - exact none_makes.
    - destruct (resolve_link e r) as [[q e']|] eqn:L; [|exact none_makes]. destruct (link_calm _ _ _ _ CE L). auto.
    - apply escape_makes. destruct (eat_token (cf_eng c) re inp) eqn:TK; try exact none_makes. apply SELF; [intros y [<-|[<-|[<-|[]]]]; auto|].
      do 2 right. left. exists (quote t), re, inp, None. repeat split; eauto.
    - apply escape_makes. destruct (eat_token (cf_eng c) re inp) eqn:TK; try exact none_makes. apply SELF; [intros y [<-|[<-|[<-|[]]]]; auto|].
      do 2 right. left. exists re, re, inp, None. repeat split; eauto.
    - apply escape_makes. apply seq_makes; [auto|now apply calm_list].
    - apply escape_makes. auto.
    - apply escape_makes. destruct (parse c f e p sc inp k) as [[[t|er| |] inp'] k']; try exact none_makes. apply settled_makes. auto.
    - apply escape_makes. destruct (replace_cut c false sc k) as [[[sc' prevcp] mycp] k']. destruct CP. apply quant_makes; auto.
    - apply escape_makes. destruct (replace_cut c false sc k) as [[[sc' prevcp] mycp] k']. apply oneof_makes; [auto|now apply calm_list|intros y []].
    - apply escape_makes. destruct (lookup i (svals sc)) as [expected|].
      + destruct (term_from_ref_val expected) as [t|] eqn:R; [|exact none_makes]. destruct (term_parser (cf_eng c) t None i) as [q| |] eqn:Q; try exact none_makes.
        destruct (parse c f [] q sc inp k) as [[[v|er| |] inp'] k']; try exact none_makes.
        * destruct (nodes_equal v expected); [exact none_makes|]. apply SELF; [intros y [<-|[<-|[<-|[]]]]; auto|]. do 3 right. left. left. auto.
        * apply IH; [constructor|]. eapply term_calm; eauto. eapply undemanding_mild, ref_undemanding; eauto.
      + destruct d as [s|]; [|apply SELF; [intros y [<-|[]]; auto|do 3 right; left; right; left; auto]]. destruct (term_parser (cf_eng c) (TS s) None i) as [q| |] eqn:Q; try exact none_makes.
        destruct (parse c f [] q sc inp k) as [[[v|er| |] inp'] k']; try exact none_makes. apply IH; [constructor|]. eapply term_calm; eauto. exact Logic.I.
    - apply escape_makes. destruct (lookup s (cf_ext c)) as [fn|] eqn:L; [|apply SELF; [intros y [<-|[]]; auto|do 3 right; left; right; right; left; auto]].
      destruct (fn sc inp) as [inp' [t|er]]; [exact none_makes|]. intros y Y. injection Y as <-. constructor. eauto.
    - destruct CP as [C1 C2]. apply IH; auto. constructor; auto. now apply calm_rules.
  Qed.
  Lemma rule_made : forall show fuel ps rule inp x, Forall (fun kv => calm (snd kv)) (p_rules ps) ->
    rule_fault quote show c fuel ps rule inp = Some x -> made x.
  Proof.
    intros show fuel ps rule inp x C H. unfold rule_fault in H. destruct (lookup rule (p_rules ps)) as [p|] eqn:L; [|discriminate].
    destruct (parse c fuel [p_rules ps] p empty_scope inp 0) as [[[t|er| |] inp'] k']; try discriminate.
    - destruct (sstring inp') as [[|b l]|]; try discriminate. injection H as <-. constructor.
    - revert x H. change (makes (obind (fault_of quote show c fuel [p_rules ps] p empty_scope inp 0) (fun x => Some (settle inp' x)))).
      apply settled_makes. apply fault_made; [constructor; auto|]. apply lookup_In in L. eapply Forall_forall in C; eauto. auto.
  Qed.
End Made.
