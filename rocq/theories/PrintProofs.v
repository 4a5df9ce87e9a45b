(** Printed grammars are texts of the grammar language. *)
From Coq Require Import Permutation DecimalString DecimalNat.
From Verif Require Import Base Scanner Syntax Engine Resolve StrLit NumSpec TextSpec GoSpec Codegen CodegenProofs TermString PrintSpec LayoutSpec.
Local Open Scope string_scope.
Local Open Scope list_scope.

(** * Layouts *)
Lemma lays_join : forall ks us z y x, lays ks z x -> lays us y z -> lays (ks ++ us) y x.
Proof. intros ks us z y x L. induction L as [|k ks w x z W G L IH]; intros U; cbn [app]; auto. constructor; auto. Qed.
Lemma lays_absorb : forall ks w y x, lays ks (w ++ y) x -> ks <> [] -> forallb white w = true -> lays ks y x.
Proof.
  intros ks w y x L N W. remember (w ++ y) as u eqn:U. induction L as [|k ks w' x u W' G L IH]; [congruence|].
  destruct ks as [|k' ks].
  - inversion L; subst. rewrite (app_assoc w' w y). constructor; [rewrite forallb_app, W', W; auto| |constructor].
    intros E c z Q. apply app_eq_nil in E as [-> ->]. apply (G eq_refl c z Q).
  - constructor; auto. apply IH; auto. discriminate.
Qed.
(** Texts that end a token. *)
Definition stops (y : bytes) : Prop := forall c z, y = c :: z -> wordly c = false /\ c <> "`"%char.
Definition fits (ks : list token) (x : bytes) : Prop := ks <> [] /\ forall y, stops y -> lays ks y (x ++ y).
Lemma stops_cons : forall c y, wordly c = false -> c <> "`"%char -> stops (c :: y).
Proof. intros c y W N d z Q. inversion Q; subst. auto. Qed.
Ltac stp := cbn [app bs list_ascii_of_string]; apply stops_cons; [reflexivity|discriminate].
Lemma fits_then : forall ks x us z w, fits ks x -> forallb white w = true -> stops (w ++ z) -> forall y, lays us y z -> lays (ks ++ us) y (x ++ w ++ z).
Proof. intros ks x us z w [N F] W S y L. eapply lays_join; [|exact L]. apply (lays_absorb ks w); auto. Qed.
Lemma lays_sign : forall s us y z w, forallb white w = true -> lays us y z -> lays (Sign s :: us) y (bs s ++ w ++ z).
Proof. intros s us y z w W L. constructor; auto. Qed.
Lemma fits_word : forall k, (forall c, glued k c = true -> wordly c = true \/ c = "`"%char) -> fits [k] (spelling k).
Proof.
  intros k G. split; [discriminate|]. intros y S. change (spelling k ++ y) with (spelling k ++ [] ++ y). constructor; [auto| |constructor].
  intros _ c z Q. destruct (glued k c) eqn:E; auto. destruct (S c z Q) as [W N]. destruct (G c E); congruence.
Qed.
Lemma fits_name : forall x, fits [Name x] x.
Proof. intros x. apply (fits_word (Name x)). cbn. auto. Qed.
Lemma fits_text : forall x, string_token x -> fits [Text x] x.
Proof.
  intros x _. apply (fits_word (Text x)). cbn. intros c H. apply andb_true_iff in H as [_ H]. apply Ascii.eqb_eq in H. auto.
Qed.
Lemma fits_number : forall x, fits [Number x] x.
Proof. intros x. apply (fits_word (Number x)). cbn. auto. Qed.
Lemma fits_sign : forall s, fits [Sign s] (bs s).
Proof. intros s. apply (fits_word (Sign s)). cbn. discriminate. Qed.
Lemma fits_app : forall ks x us z, fits ks x -> fits us z -> stops z -> z <> [] -> fits (ks ++ us) (x ++ z).
Proof.
  intros ks x us z F G S N. split; [destruct F as [F _]; destruct ks; [congruence|discriminate]|]. intros y Y. rewrite <- app_assoc.
  apply (fits_then ks x us (z ++ y) []); auto; [|apply G; auto]. cbn [app]. destruct z as [|c z]; [congruence|]. intros d u Q. inversion Q; subst. apply (S d z). auto.
Qed.
Lemma fits_sign_app : forall s us z, fits us z -> fits (Sign s :: us) (bs s ++ z).
Proof. intros s us z [_ G]. split; [discriminate|]. intros y Y. rewrite <- app_assoc. apply (lays_sign s us y (z ++ y) []); auto. Qed.

(** * Numbers *)
Lemma dec_numeral : forall n, numeral (bs (dec n)) n /\ int_token (bs (dec n)).
Proof.
  intros n. unfold dec. pose proof (digits_value (Nat.to_uint n) 0) as V. pose proof (digits_all (Nat.to_uint n)) as D.
  pose proof (DecimalNat.Unsigned.of_to n) as O. unfold Nat.of_uint in O. rewrite O in V.
  assert (N : bs (NilEmpty.string_of_uint (Nat.to_uint n)) <> []).
  { intros Q. pose proof (DecimalNat.Unsigned.to_of (Nat.to_uint n)) as H. rewrite DecimalNat.Unsigned.of_to in H. destruct (Nat.to_uint n); discriminate. }
  revert V D N. generalize (bs (NilEmpty.string_of_uint (Nat.to_uint n))). clear. intros ds V D N.
  assert (DG : forall c, GoSpec.digit c = true -> digit c = true /\ digit_value c (nat_of_ascii c - 48)).
  { intros c H. assert (Q : digit c = true) by exact H. split; auto. unfold digit, within in Q. apply andb_true_iff in Q as [H1 H2]. apply Nat.leb_le in H1, H2.
    change (nat_of_ascii "0") with 48%nat in H1. change (nat_of_ascii "9") with 57%nat in H2. constructor; lia. }
  split.
  - subst n. revert D N. induction ds as [|c ds IH] using rev_ind; intros D N; [congruence|]. rewrite forallb_app in D. apply andb_true_iff in D as [D1 D2].
    cbn [forallb] in D2. apply andb_true_iff in D2 as [D2 _]. rewrite fold_left_app. cbn [fold_left]. destruct (DG c D2) as [_ DV].
    destruct ds as [|d ds]; [cbn [fold_left app]; replace (10 * 0 + (nat_of_ascii c - 48))%nat with (nat_of_ascii c - 48)%nat by lia; constructor; auto|].
    constructor; [apply IH; [auto|discriminate]|auto].
  - split; auto.
Qed.

(** * Terms *)
Section Printing.
  Variable quote : bytes -> bytes.
  Local Notation plain := (plain quote).
  Local Notation term_string := (term_string quote).

  Section Ind.
    Variable P : nat -> term -> Prop.
    Hypothesis HStack : forall t1 t2 ts, Forall (plain 1) (t1 :: t2 :: ts) -> Forall (P 1) (t1 :: t2 :: ts) -> P 0 (TStack (t1 :: t2 :: ts)).
    Hypothesis HChoice : forall t1 t2 ts, Forall (plain 2) (t1 :: t2 :: ts) -> Forall (P 2) (t1 :: t2 :: ts) -> P 1 (TOneof (t1 :: t2 :: ts)).
    Hypothesis HQuant : forall t mn mx, P 3 t -> fair_bounds mn mx -> P 2 (TQuant t mn mx).
    Hypothesis HList : forall t sep a l r, P 3 t -> P 3 sep -> P 2 (TDelim t sep a l r).
    Hypothesis HNamed : forall n t, a_name n -> P 4 t -> P 3 (TNamed n t).
    Hypothesis HRule : forall x, a_name x -> P 4 (TRule x).
    Hypothesis HString : forall s, undone quote s -> P 4 (TS s).
    Hypothesis HRef : forall i s, a_name i -> undone quote s -> P 4 (TREF i (Some s)).
    Hypothesis HNone : P 4 (TSeq []).
    Hypothesis HSeq : forall t1 t2 ts, Forall (plain 2) (t1 :: t2 :: ts) -> Forall (P 2) (t1 :: t2 :: ts) -> P 4 (TSeq (t1 :: t2 :: ts)).
    Hypothesis HLook : forall t, P 0 t -> P 4 (TLookAhead t).
    Hypothesis HNext : forall n t, P (S n) t -> (n < 4)%nat -> P n t.
    Fixpoint plain_ind' (n : nat) (t : term) (H : plain n t) {struct H} : P n t :=
      let go := fix go m (l : list term) (F : Forall (plain m) l) : Forall (P m) l :=
        match F in Forall _ l return Forall (P m) l with
        | Forall_nil _ => Forall_nil (P m)
        | Forall_cons x p F' => Forall_cons x (plain_ind' m x p) (go m _ F')
        end in
      match H in PrintSpec.plain _ n t return P n t with
      | pl_stack _ t1 t2 ts F => HStack t1 t2 ts F (go 1 _ F)
      | pl_choice _ t1 t2 ts F => HChoice t1 t2 ts F (go 2 _ F)
      | pl_quant _ t mn mx p b => HQuant t mn mx (plain_ind' _ _ p) b
      | pl_list _ t sep a l r p q => HList t sep a l r (plain_ind' _ _ p) (plain_ind' _ _ q)
      | pl_named _ n t a p => HNamed n t a (plain_ind' _ _ p)
      | pl_rule _ x a => HRule x a
      | pl_string _ s u => HString s u
      | pl_ref _ i s a u => HRef i s a u
      | pl_none _ => HNone
      | pl_seq _ t1 t2 ts F => HSeq t1 t2 ts F (go 2 _ F)
      | pl_look _ t p => HLook t (plain_ind' _ _ p)
      | pl_next _ n t p l => HNext n t (plain_ind' _ _ p) l
      end.
  End Ind.

  (** How a term of a level is written. *)
  Definition shape (n : nat) (t : term) (ks : list token) : Prop :=
    match n with
    | 0 => exists c, writes 0 c ks /\ term_of c = t
    | 1 => exists c, writes 1 c ks /\ term_of c = t
    | 2 => exists c, writes 3 c ks /\ term_of c = t
    | 3 => exists m a, writes_named m a ks /\ named_term m (term_of a) = t
    | _ => exists a, writes_atom a ks /\ term_of a = t
    end.
  Definition printed (n : nat) (t : term) : Prop := exists x ks, term_string t = Some x /\ shape n t ks /\ fits ks x.

  Lemma all_printed : forall n ts, Forall (printed n) ts -> exists xs, all_some (map term_string ts) = Some xs /\
    Forall2 (fun t x => exists ks, shape n t ks /\ fits ks x) ts xs.
  Proof.
    intros n ts F. induction F as [|t ts (x & ks & T & S & H) _ (xs & A & G)]; [exists []; split; [reflexivity|constructor]|].
    exists (x :: xs). cbn [map all_some]. rewrite T, A. split; [reflexivity|]. constructor; eauto.
  Qed.
  Lemma name_text : forall x, a_name x -> x <> "" /\ sb (bs x) = x.
  Proof.
    intros x N. split; [|apply sb_bs]. intros ->. destruct N as [N|(d & c & w & N & _)]; [discriminate|]. destruct d; discriminate.
  Qed.
  (** Lists with an operator between the terms. *)
  Definition opspace (op : string) : bytes := bs " " ++ bs op ++ bs " ".
  Lemma join_more : forall sep x y l, join sep (x :: y :: l) = x ++ sep ++ join sep (y :: l).
  Proof. reflexivity. Qed.
  Lemma levels_fit : forall op (W : term -> list token -> Prop) n ts xs,
    (forall t ks, W t ks -> exists c, writes n c ks /\ term_of c = t) -> (op = ">" \/ op = "|") -> ts <> [] ->
    Forall2 (fun t x => exists ks, W t ks /\ fits ks x) ts xs ->
    exists cs ks, writes_list op n cs ks /\ map term_of cs = ts /\ fits ks (join (opspace op) xs).
  Proof.
    intros op W n ts xs HW OP N F. induction F as [|t x ts xs (ks & S & FT) F IH]; [congruence|]. destruct (HW _ _ S) as (c & WC & TC). clear N.
    destruct F as [|t2 x2 ts xs H2 F].
    - exists [c], ks. cbn [join map]. split; [constructor; auto|]. split; [congruence|auto].
    - destruct IH as (cs & us & WL & MT & FU); [discriminate|]. exists (c :: cs), (ks ++ Sign op :: us). split; [constructor; auto|]. split; [cbn [map]; congruence|].
      rewrite join_more. destruct FT as [NK FT]. split; [destruct ks; [congruence|discriminate]|]. intros y Y. unfold opspace. rewrite <- !app_assoc.
      apply (fits_then ks x (Sign op :: us) (bs op ++ bs " " ++ join (bs " " ++ bs op ++ bs " ") (x2 :: xs) ++ y) (bs " ")); [split; auto|reflexivity|stp|].
      apply lays_sign; [reflexivity|]. apply FU. auto.
  Qed.
  Lemma items_fit : forall ts xs, ts <> [] -> Forall2 (fun t x => exists ks, shape 2 t ks /\ fits ks x) ts xs ->
    exists cs ks, writes_items cs ks /\ map term_of cs = ts /\ fits ks (join (bs " ") xs).
  Proof.
    intros ts xs N F. induction F as [|t x ts xs (ks & (c & WC & TC) & FT) F IH]; [congruence|]. clear N.
    destruct F as [|t2 x2 ts xs H2 F].
    - exists [c], ks. cbn [join map]. split; [constructor; auto|]. split; [congruence|auto].
    - destruct IH as (cs & us & WL & MT & FU); [discriminate|]. exists (c :: cs), (ks ++ us). split; [constructor; auto|]. split; [cbn [map]; congruence|].
      rewrite join_more. destruct FT as [NK FT]. split; [destruct ks; [congruence|discriminate]|]. intros y Y. rewrite <- !app_assoc.
      apply (fits_then ks x us (join (bs " ") (x2 :: xs) ++ y) (bs " ")); [split; auto|reflexivity|stp|]. apply FU. auto.
  Qed.
  Lemma leveled_term : forall (k : list ctext -> ctext) t1 t2 ts cs, map term_of cs = t1 :: t2 :: ts -> leveled k cs = k cs.
  Proof. intros k t1 t2 ts cs M. destruct cs as [|c [|d cs]]; try discriminate. reflexivity. Qed.
  Lemma suffix_fits : forall mn mx, fair_bounds mn mx -> exists x ks b, quant_suffix mn mx = Some x /\ writes_quant (QRep mn mx b) ks /\ fits ks x /\ stops x /\ x <> [].
  Proof.
    intros mn mx (I1 & I2 & NE).
    assert (BD : exists ks, writes_bound mx ks /\ forall y, stops y -> lays ks y ((if Nat.eqb mx 0 then [] else bs (dec mx)) ++ y)).
    { destruct (Nat.eqb_spec mx 0) as [->|]; [exists []; split; constructor|]. destruct (dec_numeral mx) as [NU TK]. exists [Number (bs (dec mx))]. split; [constructor; auto|]. apply fits_number. }
    destruct BD as (us & WB & FB).
    assert (DF : (mn <> 0 -> exists x ks b, Some (bs "{" ++ (if Nat.eqb mn 0 then [] else bs (dec mn)) ++ bs "," ++ (if Nat.eqb mx 0 then [] else bs (dec mx)) ++ bs "}") = Some x /\
        writes_quant (QRep mn mx b) ks /\ fits ks x /\ stops x /\ x <> []) /\
      (exists x ks b, Some (bs "{" ++ [] ++ bs "," ++ (if Nat.eqb mx 0 then [] else bs (dec mx)) ++ bs "}") = Some x /\
        writes_quant (QRep 0 mx b) ks /\ fits ks x /\ stops x /\ x <> [])).
    { split.
      - intros N. apply Nat.eqb_neq in N. rewrite N. destruct (dec_numeral mn) as [NU TK]. eexists. exists (Sign "{" :: Number (bs (dec mn)) :: Sign "," :: us ++ [Sign "}"]). eexists.
        split; [reflexivity|]. split; [apply wq_range; auto|]. split; [|split; [stp|discriminate]].
        split; [discriminate|]. intros y Y. rewrite <- !app_assoc. apply (lays_sign "{" _ y _ []); auto.
        apply (fits_then [Number (bs (dec mn))] (bs (dec mn)) _ _ []); [apply fits_number|reflexivity|stp|]. apply (lays_sign "," _ y _ []); auto.
        eapply lays_join; [apply FB; stp|]. apply (lays_sign "}" [] y y []); auto. constructor.
      - eexists. exists (Sign "{" :: Sign "," :: us ++ [Sign "}"]). eexists. split; [reflexivity|]. split; [apply wq_upto; auto|]. split; [|split; [stp|discriminate]].
        split; [discriminate|]. intros y Y. rewrite <- !app_assoc. apply (lays_sign "{" _ y _ []); auto. apply (lays_sign "," _ y _ []); auto.
        eapply lays_join; [apply FB; stp|]. apply (lays_sign "}" [] y y []); auto. constructor. }
    destruct DF as [DF1 DF0].
    assert (SG : forall s, In s ["*"; "?"; "+"] -> fits [Sign s] (bs s) /\ stops (bs s) /\ bs s <> []).
    { intros s [<-|[<-|[<-|[]]]]; (split; [apply fits_sign|split; [stp|discriminate]]). }
    destruct mn as [|[|mn]].
    - destruct mx as [|[|mx]].
      + exists (bs "*"), [Sign "*"], false. split; [reflexivity|]. split; [constructor|]. apply SG. cbn. auto.
      + exists (bs "?"), [Sign "?"], false. split; [reflexivity|]. split; [constructor|]. apply SG. cbn. auto.
      + exact DF0.
    - destruct mx as [|[|mx]].
      + exists (bs "+"), [Sign "+"], true. split; [reflexivity|]. split; [constructor|]. apply SG. cbn. auto.
      + exfalso. apply NE; auto.
      + apply DF1. discriminate.
    - apply DF1. discriminate.
  Qed.
  Lemma plain_printed : forall n t, plain n t -> printed n t.
  Proof.
    apply plain_ind'; unfold printed.
    - intros t1 t2 ts _ F. destruct (all_printed _ _ F) as (xs & A & G). eexists. cbn [term_string]. unfold join_terms. rewrite A.
      destruct (levels_fit ">" (shape 1) 1 (t1 :: t2 :: ts) xs) as (cs & ks & W & M & FT); [auto|auto|discriminate|exact G|].
      exists ks. split; [reflexivity|]. split; [|exact FT]. exists (leveled CStack cs). split; [constructor; auto|].
      rewrite (leveled_term _ _ _ _ _ M). cbn [term_of]. rewrite M. reflexivity.
    - intros t1 t2 ts _ F. destruct (all_printed _ _ F) as (xs & A & G). eexists. cbn [term_string]. unfold join_terms. rewrite A.
      destruct (levels_fit "|" (shape 2) 2 (t1 :: t2 :: ts) xs) as (cs & ks & W & M & FT); [|auto|discriminate|exact G|].
      { intros t ks (c & WC & TC). exists (CSeq [c]). split; [constructor; constructor; auto|]. cbn. auto. }
      exists ks. split; [reflexivity|]. split; [|exact FT]. exists (leveled CChoice cs). split; [constructor; auto|].
      rewrite (leveled_term _ _ _ _ _ M). cbn [term_of]. rewrite M. reflexivity.
    - intros t mn mx (x & ks & T & (m & a & WN & TA) & FT) B. destruct (suffix_fits mn mx B) as (q & us & b & Q & WQ & FQ & SQ & NQ). cbn [term_string]. rewrite T, Q.
      eexists. exists (ks ++ us). split; [reflexivity|]. split; [|apply fits_app; auto]. exists (CLeaf m a [QRep mn mx b]). split; [|cbn [term_of fold_right]; congruence].
      constructor; auto. rewrite <- (app_nil_r us). constructor; [auto|constructor].
    - intros t sep a l r (x & ks & T & (m & c & WN & TC) & FT) (x2 & ks2 & T2 & (m2 & c2 & WN2 & TC2) & FT2). cbn [term_string]. rewrite T, T2. cbn [formatted].
      eexists. exists (ks ++ Sign (match a with RightToLeft => "<:" | LeftToRight => ":>" | NonAssociative => ":" end) :: comma l ++ ks2 ++ comma r). split; [reflexivity|]. split.
      + exists (CLeaf m c [QList a m2 c2 l r]). split; [|cbn [term_of fold_right]; congruence]. constructor; auto.
        match goal with |- writes_quants _ ?u => rewrite <- (app_nil_r u) end. constructor; [|constructor]. constructor; auto. destruct a; constructor.
      + apply fits_app; auto; [|destruct a; stp|destruct a; discriminate].
        assert (FC : fits (ks2 ++ comma r) (x2 ++ (if r then bs "," else []))).
        { destruct r; cbn [comma]; [|rewrite !app_nil_r; auto]. apply fits_app; auto; [apply fits_sign|stp|discriminate]. }
        assert (FL : fits (comma l ++ ks2 ++ comma r) ((if l then bs "," else []) ++ x2 ++ (if r then bs "," else []))).
        { destruct l; cbn [comma]; [|auto]. apply (fits_sign_app "," _ _ FC). }
        destruct a; [apply (fits_sign_app "<:")|apply (fits_sign_app ":")|apply (fits_sign_app ":>")]; auto.
    - intros n t N (x & ks & T & (a & WA & TA) & FT). cbn [term_string]. rewrite T. cbn [formatted]. eexists. exists (Name (bs n) :: Sign "=" :: ks). split; [reflexivity|]. split.
      + destruct (name_text n N) as [NN SN]. exists (sb (bs n)), a. split; [constructor; auto|]. rewrite SN. unfold named_term. apply String.eqb_neq in NN. rewrite NN. congruence.
      + apply (fits_app [Name (bs n)]); [apply fits_name| |stp|discriminate]. apply (fits_sign_app "="). auto.
    - intros x N. destruct (name_text x N) as [_ SN]. exists (bs x), [Name (bs x)]. split; [reflexivity|]. split; [|apply fits_name]. exists (CRule (sb (bs x))). split; [constructor; auto|]. cbn. congruence.
    - intros s [ST PS]. exists (quote s), [Text (quote s)]. split; [reflexivity|]. split; [|apply fits_text; auto]. exists (CLit s). split; [constructor; auto|reflexivity].
    - intros i s N [ST PS]. destruct (name_text i N) as [_ SN]. eexists. exists ([Sign "%"; Name (bs i)] ++ Sign "=" :: [Text (quote s)]). split; [reflexivity|]. split.
      + exists (CRef (sb (bs i)) (Some s)). split; [constructor; auto|]. cbn. congruence.
      + apply (fits_sign_app "%"). apply (fits_app [Name (bs i)] _ [Sign "="; Text (quote s)]); [apply fits_name| |stp|discriminate]. apply (fits_sign_app "="). apply fits_text. auto.
    - exists (bs "()"), [Sign "("; Sign ")"]. split; [reflexivity|]. split; [|apply (fits_sign_app "("); apply fits_sign]. exists CNone. split; [constructor|reflexivity].
    - intros t1 t2 ts _ F. destruct (all_printed _ _ F) as (xs & A & G). cbn [term_string]. unfold join_terms. rewrite A. cbn [option_map].
      destruct (items_fit (t1 :: t2 :: ts) xs) as (cs & ks & W & M & FT); [discriminate|exact G|]. eexists. exists (Sign "(" :: ks ++ [Sign ")"]). split; [reflexivity|]. split.
      + exists (CGroup (CSeq [CSeq [CSeq cs]])). split.
        * constructor. apply (w_stack [CSeq [CSeq cs]]). constructor. apply (w_choice [CSeq cs]). constructor. constructor. auto.
        * cbn [term_of map juxtaposed]. rewrite M. reflexivity.
      + apply (fits_sign_app "("). apply fits_app; auto; [apply fits_sign|stp|discriminate].
    - intros t (x & ks & T & (c & WC & TC) & FT). cbn [term_string]. rewrite T. cbn [formatted]. eexists. exists (Sign "(?=" :: ks ++ [Sign ")"]). split; [reflexivity|]. split.
      + exists (CLook (CSeq [c])). split; [constructor; auto|]. cbn. congruence.
      + apply (fits_sign_app "(?="). apply fits_app; auto; [apply fits_sign|stp|discriminate].
    - intros n t (x & ks & T & S & FT) L. exists x, ks. split; [auto|]. split; [|auto]. clear -S L. destruct n as [|[|[|[|n]]]]; [..|lia]; cbn [shape] in *.
      + destruct S as (c & W & TC). exists (CSeq [c]). split; [apply (w_stack [c]); constructor; auto|cbn; congruence].
      + destruct S as (c & W & TC). exists (CSeq [CSeq [c]]). split; [apply (w_choice [CSeq [c]]); constructor; constructor; constructor; auto|cbn; congruence].
      + destruct S as (m & a & W & TC). exists (CLeaf m a []). split; [|cbn; congruence]. rewrite <- (app_nil_r ks). constructor; [auto|constructor].
      + destruct S as (a & W & TC). exists "", a. split; [constructor; auto|cbn; congruence].
  Qed.

  (** * Grammars *)
  Definition production (kv : string * term) (s : statement) : Prop := exists c, s = Rule (fst kv) c /\ term_of c = snd kv.
  Lemma rules_written : forall rules l, Forall (fun kv : string * term => a_name (fst kv) /\ plain 0 (snd kv)) l -> l <> [] ->
    (forall k t, In (k, t) l -> lookup k rules = Some (formatted (term_string t))) ->
    exists ss, Forall2 production l ss /\ writes_text ss (write_rules rules (map fst l) true ++ bs ";").
  Proof.
    intros rules l F NE L. induction F as [|[k t] l [N P] F IH]; [congruence|]. clear NE. cbn [fst snd] in *.
    destruct (plain_printed _ _ P) as (x & ks & T & (c & W & TC) & FT). destruct (name_text k N) as [_ SN].
    assert (LK : lookup k rules = Some x) by (rewrite (L k t) by (left; reflexivity); rewrite T; reflexivity).
    assert (NX : exists ss, Forall2 production l ss /\ exists y z, writes_text ss y /\ write_rules rules (map fst l) false ++ bs ";" = bs ";" ++ z ++ y /\ forallb white z = true).
    { destruct l as [|kv l].
      - exists []. split; [constructor|]. exists [], []. repeat split; constructor.
      - destruct IH as (ss & FS & WS); [discriminate|intros; apply L; right; auto|]. exists ss. split; [auto|]. eexists. exists (bs " "). split; [exact WS|]. split; reflexivity. }
    destruct NX as (ss & FS & y & z & WS & EQ & WZ). exists (Rule (sb (bs k)) c :: ss). split.
    - constructor; [|auto]. exists c. rewrite SN. split; auto.
    - eapply wt_rule; [exact N|exact W|exact WS|]. cbn [map fst write_rules app]. rewrite LK, <- !app_assoc, EQ.
      apply (fits_then [Name (bs k)] (bs k) _ _ (bs " ")); [apply fits_name|reflexivity|stp|].
      apply (lays_sign "->" _ y _ (bs " ")); [reflexivity|]. destruct FT as [_ FT]. eapply lays_join; [apply FT; stp|].
      apply (lays_sign ";" [] y _ z); auto. constructor.
  Qed.
End Printing.

Lemma productions_text : forall l ss, Forall2 production l ss -> grammar_text (rules_of ss) = l.
Proof.
  intros l ss F. induction F as [|[k t] s l ss (c & -> & T) F IH]; [reflexivity|]. unfold rules_of in *. cbn [flat_map app fst snd] in *. unfold grammar_text in *. cbn [map fst snd juxtaposed].
  now rewrite IH, T.
Qed.
Lemma sorted_all : forall A (l : list (string * A)), NoDup (keys l) -> Permutation (sorted l) l.
Proof.
  intros A l ND. apply NoDup_Permutation.
  - apply (NoDup_map_inv fst). exact (sorted_nodup _ _ ND).
  - apply (NoDup_map_inv fst). exact ND.
  - intros [k v]. split; intros I; [apply lookup_In, sorted_In; auto|]. apply lookup_In. rewrite sorted_lookup by auto. apply In_lookup; auto.
Qed.
Theorem grammar_printed : forall quote g, plain_grammar quote g -> exists ss, text_of ss (grammar_string quote g) /\ Permutation (grammar_text (rules_of ss)) g.
Proof.
  intros quote g (L & ND & F). pose proof (sorted_all _ g ND) as P.
  assert (FS : Forall (fun kv : string * term => a_name (fst kv) /\ plain quote 0 (snd kv)) (sorted g)).
  { apply Forall_forall. intros kv I. rewrite Forall_forall in F. apply F. eapply Permutation_in; eauto. }
  set (rules := map (fun kv : string * term => (fst kv, formatted (term_string quote (snd kv)))) g).
  destruct (rules_written quote rules (sorted g) FS) as (ss & PS & W).
  - intros E. apply Permutation_length in P. rewrite E in P. cbn in P. lia.
  - intros k t I. apply sorted_In in I. unfold rules. rewrite (lookup_map _ _ (fun _ t => formatted (term_string quote t))). now rewrite I.
  - exists ss. split.
    + split; [intros ->; inversion PS as [E|]; apply Permutation_length in P; rewrite <- E in P; cbn in P; lia|].
      exists [], (grammar_string quote g). split; [reflexivity|]. split; [reflexivity|]. unfold grammar_string, rules_string. fold rules.
      replace (Nat.ltb 1 (length rules)) with true by (symmetry; apply Nat.ltb_lt; unfold rules; rewrite map_length; auto).
      replace (sort_strings (keys rules)) with (map fst (sorted g)); [exact W|]. change (map fst (sorted g)) with (keys (sorted g)). rewrite keys_sorted. f_equal. unfold rules, keys. now rewrite map_map.
    + rewrite (productions_text _ _ PS). exact P.
Qed.

Lemma single_unfinished : forall quote k t, a_name k -> plain quote 0 t -> unfinished (grammar_string quote [(k, t)]).
Proof.
  intros quote k t N P. destruct (plain_printed _ _ _ P) as (x & ks & T & (c & W & TC) & NK & FT). eapply (uf_last (bs k) c ks); [exact N|exact W|].
  unfold grammar_string, rules_string. cbn [map fst snd length Nat.ltb Nat.leb keys]. rewrite T. cbn [formatted].
  change (sort_strings [k]) with [k]. cbn [write_rules lookup]. rewrite String.eqb_refl, !app_nil_r. cbn [app].
  apply (fits_then [Name (bs k)] (bs k) _ _ (bs " ")); [apply fits_name|reflexivity|stp|]. apply (lays_sign "->" _ [] _ (bs " ")); [reflexivity|].
  specialize (FT [] ltac:(intros ? ? ?; discriminate)). rewrite app_nil_r in FT. exact FT.
Qed.

(** * Quoted strings *)
Lemma tidy_char_quoted : forall c, tidy_char c = true -> (exists e, quote_char c = ["\"%char; e] /\ e <> nl) \/ quote_char c = [c] /\ c <> """"%char /\ c <> "\"%char.
Proof.
  intros c H. destruct c as [[] [] [] [] [] [] [] []]; vm_compute in H; try discriminate; first [left; eexists; split; [reflexivity|discriminate]|right; split; [reflexivity|split; discriminate]].
Qed.
Lemma tidy_char_read : forall c s, tidy_char c = true -> unescape """"%char (quote_char c ++ s) = option_map (cons c) (unescape """"%char s).
Proof.
  intros c s H. destruct c as [[] [] [] [] [] [] [] []]; vm_compute in H; try discriminate; cbn [quote_char app]; reflexivity.
Qed.
Lemma quoted_string : forall s, forallb tidy_char s = true -> undone ascii_quote s.
Proof.
  intros s H. split.
  - left. exists """"%char, (flat_map quote_char s). split; [cbn; auto|]. split; [reflexivity|]. induction s as [|c s IH]; [constructor|]. cbn [forallb flat_map] in *. apply andb_true_iff in H as [H1 H2].
    destruct (tidy_char_quoted c H1) as [(e & -> & N)|(-> & N1 & N2)]; cbn [app]; constructor; auto.
  - assert (U : unescape """"%char (flat_map quote_char s) = Some s).
    { induction s as [|c s IH]; [reflexivity|]. cbn [forallb flat_map] in *. apply andb_true_iff in H as [H1 H2]. rewrite tidy_char_read, IH by auto. reflexivity. }
    unfold ascii_quote, parse_string. transitivity (unescape """"%char (flat_map quote_char s)); [clear U|exact U]. destruct (flat_map quote_char s ++ [""""%char]) as [|d l] eqn:E; [destruct (flat_map quote_char s); discriminate|].
    cbn [tl]. rewrite <- E, removelast_last. reflexivity.
Qed.
