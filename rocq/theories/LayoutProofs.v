(** Grammar texts in any layout are parsed, and their trees read as the grammars they write. *)
From Verif Require Import Base Scanner Syntax Resolve Engine Regex RegexProofs PegSpec CutProofs WbnfGrammar Ast StrLit Build NumSpec TextSpec TokenProofs LexProofs LayoutAst PegText LayoutSpec.
Local Open Scope string_scope.
Local Open Scope list_scope.

(** * First characters *)
Definition item_start (c : ascii) : bool := letter c || member c ["@"; "."; """"; "'"; "`"; "/"; "["; "\"; "^"; "$"; "%"; "("]%char.
Definition quant_start (c : ascii) : bool := member c ["?"; "*"; "+"; "{"; ":"; "<"]%char.
Definition f0 (c : ascii) : bool := member c [")"; ";"]%char.
Definition f1 (c : ascii) : bool := f0 c || Ascii.eqb c ">".
Definition f2 (c : ascii) : bool := f1 c || Ascii.eqb c "|".
Definition f3 (c : ascii) : bool := f2 c || item_start c.
Definition fq (c : ascii) : bool := f3 c || quant_start c.
Definition f4 (c : ascii) : bool := fq c || Ascii.eqb c ",".
Ltac inc := apply include_chars; vm_compute; reflexivity.
Ltac hw := eapply headed_weak; [|eassumption]; inc.

Definition starts (f : ascii -> bool) (ks : list token) : Prop :=
  match ks with [] => False | k :: _ => exists c t, spelling k = c :: t /\ f c = true end.
Definition solid (k : token) : Prop := exists c t, spelling k = c :: t /\ white c = false.
Definition fits_item (ks : list token) : Prop := Forall solid ks /\ starts item_start ks.
Definition fits_quants (ks : list token) : Prop := Forall solid ks /\ (ks = [] \/ starts quant_start ks).
Definition fits_quant (ks : list token) : Prop := Forall solid ks /\ starts quant_start ks.

Scheme writes_m := Minimality for writes Sort Prop
  with writes_list_m := Minimality for writes_list Sort Prop
  with writes_items_m := Minimality for writes_items Sort Prop
  with writes_named_m := Minimality for writes_named Sort Prop
  with writes_atom_m := Minimality for writes_atom Sort Prop
  with writes_quants_m := Minimality for writes_quants Sort Prop
  with writes_quant_m := Minimality for writes_quant Sort Prop.
Combined Scheme writes_mutind from writes_m, writes_list_m, writes_items_m, writes_named_m, writes_atom_m, writes_quants_m, writes_quant_m.

Definition name_start (c : ascii) : bool := letter c || member c ["@"; "."]%char.
Lemma name_head : forall t, name_token t -> exists c t', t = c :: t' /\ name_start c = true.
Proof.
  intros t [->|(dot & c & w & -> & [->| ->] & L & _)].
  - exists "@"%char, []. auto.
  - exists c, w. split; auto. unfold name_start. rewrite L. auto.
  - exists "."%char, (c :: w). auto.
Qed.
Lemma string_head : forall t, string_token t -> exists c t', t = c :: t' /\ member c [""""; "'"; "`"]%char = true.
Proof.
  intros t [(q & b & I & -> & _)|(b & -> & _)].
  - exists q, (b ++ [q]). split; auto. destruct I as [<-|[<-|[]]]; reflexivity.
  - exists "`"%char, (b ++ ["`"%char]). auto.
Qed.
Lemma piece_text_head : forall t, piece_text t -> exists c t', t = c :: t' /\ piece_start c = true.
Proof.
  intros t [(b & -> & _)|[(c & -> & _)|(c & -> & I)]]; [eexists; eexists; split; [reflexivity|reflexivity]..|].
  exists c, []. split; auto. destruct I as [<-|[<-|[<-|[]]]]; reflexivity.
Qed.
Lemma regexp_head : forall t, regexp_token t -> exists c t', t = c :: t' /\ (piece_start c || Ascii.eqb c "/") = true.
Proof.
  intros t [(b & -> & _)|U].
  - exists "/"%char, ("{"%char :: b ++ ["}"%char]). auto.
  - destruct U as [t q P _|t q b P _ _]; destruct (piece_text_head t P) as (c & t' & -> & S); rewrite <- ?app_comm_cons; eexists; eexists; split; try reflexivity; rewrite S; auto.
Qed.
Lemma int_head : forall t, int_token t -> exists c t', t = c :: t' /\ digit c = true.
Proof. intros [|c t] [N D]; [congruence|]. cbn [forallb] in D. apply andb_true_iff in D. exists c, t. tauto. Qed.

Ltac head_of L := let c := fresh in let t' := fresh in let A := fresh in let B := fresh in destruct L as (c & t' & A & B); exists c, t'; split; [exact A|revert B; generalize c; inc].
Lemma solid_name : forall t, name_token t -> solid (Name t).
Proof. intros t H. destruct (name_head t H) as (c & t' & A & B). exists c, t'. split; auto. revert B. apply apart_chars. vm_compute. reflexivity. Qed.
Lemma solid_text : forall t, string_token t -> solid (Text t).
Proof. intros t H. destruct (string_head t H) as (c & t' & A & B). exists c, t'. split; auto. revert B. apply (apart_chars (fun c => member c [""""; "'"; "`"]%char)). vm_compute. reflexivity. Qed.
Lemma solid_regexp : forall t, regexp_token t -> solid (Regexp t).
Proof. intros t H. destruct (regexp_head t H) as (c & t' & A & B). exists c, t'. split; auto. revert B. apply (apart_chars (fun c => piece_start c || Ascii.eqb c "/")). vm_compute. reflexivity. Qed.
Lemma solid_number : forall t, int_token t -> solid (Number t).
Proof. intros t H. destruct (int_head t H) as (c & t' & A & B). exists c, t'. split; auto. revert B. apply apart_chars. vm_compute. reflexivity. Qed.
Lemma starts_name : forall t ks, name_token t -> starts item_start (Name t :: ks).
Proof. intros t ks H. destruct (name_head t H) as (c & t' & A & B). exists c, t'. split; auto. revert B. inc. Qed.
Lemma starts_text : forall t ks, string_token t -> starts item_start (Text t :: ks).
Proof. intros t ks H. destruct (string_head t H) as (c & t' & A & B). exists c, t'. split; auto. revert B. apply (include_chars (fun c => member c [""""; "'"; "`"]%char)). vm_compute. reflexivity. Qed.
Lemma starts_regexp : forall t ks, regexp_token t -> starts item_start (Regexp t :: ks).
Proof. intros t ks H. destruct (regexp_head t H) as (c & t' & A & B). exists c, t'. split; auto. revert B. apply (include_chars (fun c => piece_start c || Ascii.eqb c "/")). vm_compute. reflexivity. Qed.
Lemma starts_app : forall f a b, starts f a -> starts f (a ++ b).
Proof. intros f [|k a] b H; [contradiction|exact H]. Qed.
Ltac sgn := eexists; eexists; split; [reflexivity|reflexivity].
Ltac solids := repeat match goal with
  | |- Forall solid [] => constructor
  | |- Forall solid (Sign _ :: _) => constructor; [sgn|]
  | |- Forall solid (_ :: _) => constructor; [solve [apply solid_name; auto | apply solid_text; auto | apply solid_regexp; auto | apply solid_number; auto]|]
  | |- Forall solid (_ ++ _) => apply Forall_app; split
  | H : fits_item ?ks |- Forall solid ?ks => apply H
  | H : fits_quants ?ks |- Forall solid ?ks => apply H
  | H : fits_quant ?ks |- Forall solid ?ks => apply H
  end.
Lemma bound_solid : forall k ks, writes_bound k ks -> Forall solid ks.
Proof. intros k ks []; solids. Qed.
Lemma comma_solid : forall b, Forall solid (comma b).
Proof. intros []; cbn [comma]; solids. Qed.
Ltac fit := split; [solids; auto|].
Lemma fits_all :
  (forall n c ks, writes n c ks -> fits_item ks) /\ (forall op n cs ks, writes_list op n cs ks -> (op = ">" \/ op = "|") -> fits_item ks) /\
  (forall cs ks, writes_items cs ks -> fits_item ks) /\ (forall n a ks, writes_named n a ks -> fits_item ks) /\
  (forall a ks, writes_atom a ks -> fits_item ks) /\ (forall qs ks, writes_quants qs ks -> fits_quants ks) /\
  (forall q ks, writes_quant q ks -> fits_quant ks).
Proof.
  apply writes_mutind; intros; auto.
  - fit. apply starts_app. apply H0.
  - specialize (H2 H3). fit. + destruct H3 as [->| ->]; solids. + apply starts_app. apply H0.
  - fit. apply starts_app. apply H0.
  - fit. apply starts_name. auto.
  - fit. apply starts_name. auto.
  - fit. apply starts_text. auto.
  - fit. apply starts_regexp. auto.
  - fit. sgn.
  - fit. sgn.
  - fit. sgn.
  - fit. sgn.
  - fit. sgn.
  - fit. sgn.
  - fit. auto.
  - fit. right. apply starts_app. apply H0.
  - fit. sgn.
  - fit. sgn.
  - fit. sgn.
  - split; [solids; eapply bound_solid; eauto|sgn].
  - split; [solids; eapply bound_solid; eauto|sgn].
  - split; [|destruct H; sgn]. destruct H; solids; auto using comma_solid.
Qed.

(** * Layouts *)
Lemma lays_app : forall a b y x, lays (a ++ b) y x -> exists z, lays a z x /\ lays b y z.
Proof.
  induction a as [|k a IH]; intros b y x L; cbn [app] in L; [exists x; split; [constructor|auto]|].
  inversion L; subst. match goal with X : lays (a ++ b) _ _ |- _ => destruct (IH _ _ _ X) as (z & L1 & L2) end. exists z. split; auto. constructor; auto.
Qed.
Lemma lays_cons : forall k ks y x, lays (k :: ks) y x -> exists w z, x = spelling k ++ w ++ z /\ forallb white w = true /\
  headed (fun c => white c || negb (glued k c)) (w ++ z) /\ lays ks y z.
Proof. intros k ks y x L. inversion L; subst. exists w, x0. repeat split; auto. apply follow; auto. Qed.
Lemma lays_starts : forall f ks y x, lays ks y x -> starts f ks -> headed f x.
Proof. intros f ks y x L S. destruct L; [contradiction|]. destruct S as (c & t & Q & F). rewrite Q. apply headed_cons. auto. Qed.
Lemma lays_bare : forall ks y x, lays ks y x -> Forall solid ks -> TokenProofs.bare y -> TokenProofs.bare x.
Proof.
  intros ks y x L F Y. destruct L as [y|k ks w x y]; auto. inversion F as [|? ? (c & t & Q & N) ?]; subst. rewrite Q.
  intros d z HH. inversion HH; subst. rewrite <- white_space. auto.
Qed.
Lemma lays_nil : forall y x, lays [] y x -> x = y.
Proof. intros y x L. inversion L. auto. Qed.

Section Reading.
  Variable E : engine.
  Hypothesis same : finds_tokens E.
  Variable s0 : scanner.
  Local Notation ok := (ok E s0).
  Local Notation no := (no E s0).
  Local Notation no_in := (no_in E s0).

  (** * Tokens of the grammar language *)
  Lemma in_patterns : forall x, existsb (beqb x) wbnf_patterns = true -> In x wbnf_patterns.
  Proof. intros x H. apply existsb_exists in H as (y & I & B). apply beqb_eq in B. subst. auto. Qed.
  Ltac kn := split; [apply in_patterns; vm_compute; reflexivity|split; vm_compute; reflexivity].
  Lemma k_ident : known (bs "@|\.?[A-Za-z_]\w*") ident_re. Proof. kn. Qed.
  Lemma k_int : known (bs "\d+") int_re. Proof. kn. Qed.
  Lemma k_str : known (bs str_text) str_re. Proof. kn. Qed.
  Lemma k_re : known (bs re_text) re_re. Proof. kn. Qed.
  Lemma k_note : known (bs "//.*$|(?s:/\*(?:[^*]|\*+[^*/])\*/)") note_re. Proof. kn. Qed.
  Lemma k_rep_op : known (bs "[?*+]") rep_op_re. Proof. kn. Qed.
  Lemma k_list_op : known (bs "<:|:>?") list_op_re. Proof. kn. Qed.
  Definition signs : list bytes := map bs [">"; "|"; "="; "%"; "%%"; "%!"; "(?="; "("; ")"; "{"; "}"; ","; "->"; ";"; ".import"; ".macro"].
  Lemma k_sign : forall op, In op signs -> known (quote_meta op) (lit_re op).
  Proof. intros op I. repeat (destruct I as [<-|I]; [kn|]). contradiction. Qed.
  Ltac ins := cbv; tauto.
  Lemma sign_ok : forall op w y, In op signs -> forallb white w = true -> TokenProofs.bare y -> ok (TS op) (op ++ w ++ y) y (leafy op).
  Proof. intros op w y I WH B. apply lit_ok; auto. apply k_sign. auto. Qed.
  Lemma sign_no : forall gs op y f, blank_wrap gs -> In op signs -> blocks f (lit_re op) = true -> headed f y -> no_in gs (TS op) y.
  Proof. intros gs op y f G I B H. apply lit_no; auto. - apply k_sign. auto. - eapply blocked; eauto. Qed.
  Lemma sign_other : forall op y, In op signs -> has_prefix op y = false -> no (TS op) y.
  Proof. intros op y I B. apply lit_no; auto. - apply W_blank. - apply k_sign. auto. - apply dead_lit. auto. Qed.
  Ltac rul := apply rule_ok; [vm_compute; discriminate|intros ?; vm_compute; discriminate|].
  Ltac ruln := apply rule_no; [vm_compute; discriminate|intros ?; vm_compute; discriminate|].
  Lemma word_ok : forall r x re t w y, body r = TRE x -> cc r = [("", (1, 1))] -> lookup r W <> None -> known x re -> takes re t (w ++ y) ->
    forallb white w = true -> TokenProofs.bare y -> ok (TRule r) (t ++ w ++ y) y (word r t).
  Proof.
    intros r x re t w y B C L K T WH Y. apply rule_ok; auto; [rewrite B; discriminate|]. eapply ok_weak; [|rewrite B; eapply re_ok; eauto].
    intros v V. eapply leafy_word; eauto.
  Qed.
  Ltac wrd := eapply word_ok; [vm_compute; reflexivity|vm_compute; reflexivity|vm_compute; discriminate| | |auto|auto].
  Lemma name_ok : forall t w y, name_token t -> forallb white w = true -> headed (fun c => white c || negb (glued (Name t) c)) (w ++ y) -> TokenProofs.bare y ->
    ok (TRule "IDENT") (t ++ w ++ y) y (word "IDENT" t).
  Proof. intros t w y N WH H B. wrd; [apply k_ident|]. apply takes_name; auto. Qed.
  Lemma number_ok : forall t w y, int_token t -> forallb white w = true -> headed (fun c => white c || negb (glued (Number t) c)) (w ++ y) -> TokenProofs.bare y ->
    ok (TRule "INT") (t ++ w ++ y) y (word "INT" t).
  Proof. intros t w y N WH H B. wrd; [apply k_int|]. apply takes_int; auto. Qed.
  Lemma text_ok : forall t w y, string_token t -> forallb white w = true -> headed (fun c => white c || negb (glued (Text t) c)) (w ++ y) -> TokenProofs.bare y ->
    ok (TRule "STR") (t ++ w ++ y) y (word "STR" t).
  Proof. intros t w y N WH H B. wrd; [apply k_str|]. apply takes_string; auto. Qed.
  Lemma regexp_ok : forall t w y, regexp_token t -> forallb white w = true -> headed (fun c => white c || negb (glued (Regexp t) c)) (w ++ y) -> TokenProofs.bare y ->
    ok (TRule "RE") (t ++ w ++ y) y (word "RE" t).
  Proof. intros t w y N WH H B. wrd; [apply k_re|]. apply takes_regexp; auto. Qed.
  Lemma note_ok : forall t w y, ~ In nl t -> forallb white w = true -> (w = [] /\ y = [] \/ exists w', w = nl :: w') -> TokenProofs.bare y ->
    ok (TRule "COMMENT") ((bs "//" ++ t) ++ w ++ y) y (word "COMMENT" (bs "//" ++ t)).
  Proof.
    intros t w y N WH H B. wrd; [apply k_note|]. apply takes_note; auto. destruct H as [[-> ->]|(w' & ->)]; [auto|right; eexists; reflexivity].
  Qed.
  Lemma block_ok : forall b w y, block_body b -> forallb white w = true -> TokenProofs.bare y -> ok (TRule "COMMENT") (block b ++ w ++ y) y (word "COMMENT" (block b)).
  Proof. intros b w y N WH B. wrd; [apply k_note|]. apply takes_block; auto. Qed.
  Lemma block_no : forall x, (forall b y, x = b ++ bs "*/" ++ y -> ~ block_body b) -> no (TRule "COMMENT") (bs "/*" ++ x).
  Proof. intros x H. ruln. apply (re_no E same s0 _ _ note_re); [apply W_blank|apply k_note|apply block_dead; auto]. Qed.

  (** * What does not begin with a certain character *)
  Lemma ident_no : forall f x, blocks f ident_re = true -> headed f x -> no (TRule "IDENT") x.
  Proof. intros f x B H. ruln. apply (re_no E same s0 _ _ ident_re); [apply W_blank|apply k_ident|eapply blocked; eauto]. Qed.
  Lemma str_no : forall f x, blocks f str_re = true -> headed f x -> no (TRule "STR") x.
  Proof. intros f x B H. ruln. apply (re_no E same s0 _ _ str_re); [apply W_blank|apply k_str|eapply blocked; eauto]. Qed.
  Lemma regexp_no : forall f x, blocks f re_re = true -> headed f x -> no (TRule "RE") x.
  Proof. intros f x B H. ruln. apply (re_no E same s0 _ _ re_re); [apply W_blank|apply k_re|eapply blocked; eauto]. Qed.
  Lemma int_no : forall f x, blocks f int_re = true -> headed f x -> no (TRule "INT") x.
  Proof. intros f x B H. ruln. apply (re_no E same s0 _ _ int_re); [apply W_blank|apply k_int|eapply blocked; eauto]. Qed.
  Lemma note_no : forall f x, blocks f note_re = true -> headed f x -> no (TRule "COMMENT") x.
  Proof. intros f x B H. ruln. apply (re_no E same s0 _ _ note_re); [apply W_blank|apply k_note|eapply blocked; eauto]. Qed.
  Ltac blk := vm_compute; reflexivity.
  Lemma macro_no : forall x, has_prefix (bs "%!") x = false -> no (TRule "macrocall") x.
  Proof. intros x H. ruln. apply seq_no, cut_no. apply sign_other; [ins|auto]. Qed.
  Lemma ref_no : forall f x, blocks f (lit_re (bs "%")) = true -> headed f x -> no (TRule "REF") x.
  Proof. intros f x B H. ruln. apply seq_no, cut_no. eapply sign_no; [apply W_blank|ins|exact B|auto]. Qed.
  Lemma headed_prefix : forall f a t x, f a = false -> headed f x -> has_prefix (a :: t) x = false.
  Proof.
    intros f a t [|c x] F H; auto. cbn [has_prefix]. destruct (Ascii.eqb a c) eqn:Q; auto. apply Ascii.eqb_eq in Q. subst.
    rewrite (H c x eq_refl) in F. discriminate.
  Qed.
  Lemma atom_no : forall x, headed f2 x -> no (TRule "atom") x.
  Proof.
    intros x H. ruln. apply oneof_no. repeat apply Forall_cons; try apply Forall_nil.
    - eapply ident_no; [|exact H]. blk.
    - eapply str_no; [|exact H]. blk.
    - eapply regexp_no; [|exact H]. blk.
    - apply macro_no. eapply headed_prefix; [|exact H]. reflexivity.
    - apply named_no, seq_no, cut_no. eapply sign_no; [apply W_blank|ins| |exact H]. blk.
    - eapply ref_no; [|exact H]. blk.
    - apply seq_no, cut_no. eapply sign_no; [apply W_blank|ins| |exact H]. blk.
    - apply seq_no. eapply sign_no; [apply W_blank|ins| |exact H]. blk.
    - apply seq_no. eapply sign_no; [apply W_blank|ins| |exact H]. blk.
  Qed.
  Lemma item_no : forall x, headed f2 x -> no (TRule "term@3") x.
  Proof.
    intros x H. ruln. apply seq_no. ruln. eapply seq_no2.
    - intros C. inversion C.
    - apply opt_none. apply seq_no. eapply ident_no; [|exact H]. blk.
    - apply atom_no. auto.
  Qed.
  Lemma term_no : forall x, headed f2 x -> no (TRule "term") x.
  Proof.
    intros x H. ruln. apply delim_no, seq_no. ruln. apply delim_no. ruln. apply some_no. apply item_no. auto.
  Qed.
  Lemma quant_no : forall x, headed f3 x -> no (TRule "quant") x.
  Proof.
    intros x H. ruln. apply oneof_no. repeat apply Forall_cons; try apply Forall_nil.
    - apply named_no. eapply re_no; [exact same|apply W_blank|apply k_rep_op|]. eapply blocked; [|exact H]. blk.
    - apply seq_no. eapply sign_no; [apply W_blank|ins| |exact H]. blk.
    - apply seq_no, named_no. eapply re_no; [exact same|apply W_blank|apply k_list_op|]. eapply blocked; [|exact H]. blk.
  Qed.

  Lemma ident_dot : forall z, headed (fun c => negb (letter c)) z -> dead ident_re ("."%char :: z).
  Proof.
    intros z H. apply dead_alt; [apply (blocked (fun c => Ascii.eqb c ".")); [blk|apply headed_cons; auto]|].
    intros st k Q. cbn [mt]. rewrite Q. change (in_set false [("."%char, "."%char)] ".") with true. cbn [mrest].
    change (in_set false [("A"%char, "Z"%char); ("a"%char, "z"%char); ("_"%char, "_"%char)] ".") with false. cbv iota.
    destruct z as [|c z]; [reflexivity|]. specialize (H c z eq_refl). cbn beta in H. apply negb_true_iff in H.
    rewrite (same_chars (in_set false [("A"%char, "Z"%char); ("a"%char, "z"%char); ("_"%char, "_"%char)]) letter ltac:(vm_compute; reflexivity)), H. reflexivity.
  Qed.
  Lemma ident_regexp : forall t y, regexp_token t -> headed (fun c => white c || negb (glued (Regexp t) c)) y -> dead ident_re (t ++ y).
  Proof.
    intros t y [(b & -> & B)|U] H.
    - apply (blocked (fun c => Ascii.eqb c "/")); [blk|apply headed_cons; auto].
    - assert (PS : Ascii.eqb (hd " "%char t) "/" = false).
      { pose proof (unbraced_head t [] U) as P. rewrite app_nil_r in P. destruct t as [|c t]; auto. specialize (P c t eq_refl). cbn [hd].
        destruct (Ascii.eqb_spec c "/"); auto. subst. discriminate. }
      cbn [glued] in H. rewrite PS in H. cbn [negb andb] in H.
      assert (G : forall p q z, piece_text p -> (q = [] \/ exists c, q = [c] /\ In c ["?"; "*"; "+"]%char) -> headed (fun c => negb (letter c)) z -> dead ident_re (p ++ q ++ z)).
      { clear. intros p q z P Q H. destruct P as [(b & -> & _)|[(c & -> & _)|(c & -> & I)]].
        - apply (blocked (fun c => Ascii.eqb c "[")); [blk|apply headed_cons; auto].
        - apply (blocked (fun c => Ascii.eqb c "\")); [blk|apply headed_cons; auto].
        - destruct I as [<-|[<-|[<-|[]]]].
          + apply ident_dot. destruct Q as [->|(c & -> & I)]; [auto|]. apply headed_cons. destruct I as [<-|[<-|[<-|[]]]]; reflexivity.
          + apply (blocked (fun c => Ascii.eqb c "^")); [blk|apply headed_cons; auto].
          + apply (blocked (fun c => Ascii.eqb c "$")); [blk|apply headed_cons; auto]. }
      destruct U as [p q P Q|p q b P Q U]; rewrite <- !app_assoc; apply G; auto.
      + eapply headed_weak; [|exact H]. apply (include_chars (fun c => white c || negb (wordly c || member c ["["; "\"; "."; "^"; "$"; "?"; "*"; "+"; "{"]%char))). blk.
      + eapply headed_weak; [|apply unbraced_head; exact U]. inc.
  Qed.
  Lemma ident_no_regexp : forall t w y, regexp_token t -> headed (fun c => white c || negb (glued (Regexp t) c)) (w ++ y) -> no (TRule "IDENT") (t ++ w ++ y).
  Proof. intros t w y R H. ruln. apply (re_no E same s0 _ _ ident_re); [apply W_blank|apply k_ident|]. apply ident_regexp; auto. Qed.

  (** * Terms *)
  Definition stack_item : term := TSeq [TRule "term@1"; Opt (TSeq [S_ "{"; TRule "grammar"; S_ "}"])].
  Definition Pw (n : nat) (c : ctext) (ks : list token) : Prop := forall x y, lays ks y x -> TokenProofs.bare y ->
    headed (match n with 0 => f0 | 1 => f1 | 2 => f2 | _ => f3 end) y -> ok (TRule (level n)) x y (term_ast n c).
  Definition Pl (op : string) (n : nat) (cs : list ctext) (ks : list token) : Prop := forall x y, lays ks y x -> TokenProofs.bare y ->
    (op = ">" -> n = 1 -> headed f0 y -> delims E s0 stack_item (Eq_ "op" (S_ ">")) (fun c => nodes [term_ast 1 c; nodes []]) (leafy (bs ">")) x y cs) /\
    (op = "|" -> n = 2 -> headed f1 y -> delims E s0 (TRule "term@2") (Eq_ "op" (S_ "|")) (term_ast 2) (leafy (bs "|")) x y cs).
  Definition Pi (cs : list ctext) (ks : list token) : Prop := forall x y, lays ks y x -> TokenProofs.bare y -> headed f2 y ->
    cs <> [] /\ reps E s0 (TRule "term@3") x y (map (term_ast 3) cs).
  Definition Pn (n : string) (a : ctext) (ks : list token) : Prop := forall x y, lays ks y x -> TokenProofs.bare y -> headed f4 y ->
    ok (TRule "named") x y (named_ast n a).
  Definition no_name (x : bytes) : Prop := no (TSeq [TRule "IDENT"; Eq_ "op" (S_ "=")]) x.
  Definition Pa (a : ctext) (ks : list token) : Prop := forall x y, lays ks y x -> TokenProofs.bare y -> headed f4 y ->
    ok (TRule "atom") x y (atom_ast a) /\ no_name x.
  Definition Pqs (qs : list (quant ctext)) (ks : list token) : Prop := forall x y, lays ks y x -> TokenProofs.bare y -> headed f3 y ->
    reps E s0 (TRule "quant") x y (map quant_ast qs).
  Definition Pq (q : quant ctext) (ks : list token) : Prop := forall x y, lays ks y x -> TokenProofs.bare y -> headed fq y ->
    ok (TRule "quant") x y (quant_ast q).

  Lemma f01 : forall y, headed f0 y -> headed f1 y. Proof. intros y H. hw. Qed.
  Lemma f12 : forall y, headed f1 y -> headed f2 y. Proof. intros y H. hw. Qed.
  Lemma f23 : forall y, headed f2 y -> headed f3 y. Proof. intros y H. hw. Qed.
  Lemma f34 : forall y, headed f3 y -> headed f4 y. Proof. intros y H. hw. Qed.
  Lemma fq4 : forall y, headed fq y -> headed f4 y. Proof. intros y H. hw. Qed.
  Lemma f3q : forall y, headed f3 y -> headed fq y. Proof. intros y H. hw. Qed.
  Lemma item3 : forall y, headed item_start y -> headed f3 y. Proof. intros y H. hw. Qed.
  Lemma quantq : forall y, headed quant_start y -> headed fq y. Proof. intros y H. hw. Qed.
  Lemma not_sign : forall op y f, In op signs -> blocks f (lit_re op) = true -> headed f y -> no (TS op) y.
  Proof. intros op y f I B H. eapply sign_no; eauto. apply W_blank. Qed.
  Ltac nsign H := eapply not_sign; [ins| |exact H]; blk.
  Lemma sign_head : forall op w y, headed (fun c => Ascii.eqb c (hd " "%char op)) (op ++ w ++ y) \/ op = [].
  Proof. intros [|c op] w y; [auto|left]. apply headed_cons. cbn [hd]. apply Ascii.eqb_refl. Qed.
  Lemma sign_bare : forall op ks y x, lays (Sign op :: ks) y x -> solid (Sign op) -> TokenProofs.bare x.
  Proof. intros op ks y x L (c & t & Q & N). inversion L; subst. rewrite Q. intros d z HH. inversion HH; subst. rewrite <- white_space. auto. Qed.

  Lemma list_wl_one : forall op n c ks, writes n c ks -> Pw n c ks -> Pl op n [c] ks.
  Proof.
    intros op n c ks _ H x y L B. split; intros -> -> F.
    - constructor; [|apply named_no; nsign F]. apply seq_ok. econstructor; [apply (H x y L B), f01, F|]. econstructor; [|constructor].
      apply opt_none, seq_no. apply f01 in F. nsign F.
    - constructor; [apply (H x y L B), f12, F|apply named_no; nsign F].
  Qed.
  Lemma list_wl_more : forall op n c cs ks us, writes n c ks -> Pw n c ks -> writes_list op n cs us -> Pl op n cs us -> Pl op n (c :: cs) (ks ++ Sign op :: us).
  Proof.
    intros op n c cs ks us _ H WL HL x y L B. destruct (lays_app _ _ _ _ L) as (z & L1 & L2). pose proof L2 as L2'.
    apply lays_cons in L2 as (w & z2 & -> & WH & _ & L3). cbn [spelling] in *.
    split; intros -> -> F.
    - assert (B2 : TokenProofs.bare z2) by (eapply lays_bare; [exact L3| |exact B]; eapply (proj1 (proj2 fits_all)); eauto).
      assert (HD : headed f1 (bs ">" ++ w ++ z2)) by (apply headed_cons; reflexivity).
      eapply dl_more with (u := z2).
      + apply seq_ok. econstructor; [apply (H _ _ L1); [eapply sign_bare; [exact L2'|sgn]|exact HD]|]. econstructor; [|constructor].
        apply opt_none, seq_no. nsign HD.
      + apply named_ok. apply sign_ok; auto. ins.
      + apply (HL z2 y L3 B); auto.
    - assert (B2 : TokenProofs.bare z2) by (eapply lays_bare; [exact L3| |exact B]; eapply (proj1 (proj2 fits_all)); eauto).
      assert (HD : headed f2 (bs "|" ++ w ++ z2)) by (apply headed_cons; reflexivity).
      eapply dl_more with (u := z2).
      + apply (H _ _ L1); [eapply sign_bare; [exact L2'|sgn]|exact HD].
      + apply named_ok. apply sign_ok; auto. ins.
      + apply (HL z2 y L3 B); auto.
  Qed.
  Lemma fit_bare : forall ks y x, lays ks y x -> fits_item ks -> TokenProofs.bare y -> TokenProofs.bare x.
  Proof. intros ks y x L F B. eapply lays_bare; eauto. apply F. Qed.
  Lemma fit_head : forall ks y x, lays ks y x -> fits_item ks -> headed item_start x.
  Proof. intros ks y x L F. eapply lays_starts; eauto. apply F. Qed.
  Lemma items_one : forall c ks, writes 3 c ks -> Pw 3 c ks -> Pi [c] ks.
  Proof.
    intros c ks _ H x y L B F. split; [discriminate|]. cbn [map]. eapply rp_more; [apply (H x y L B), f23, F|]. constructor. apply item_no. auto.
  Qed.
  Lemma items_more : forall c cs ks us, writes 3 c ks -> Pw 3 c ks -> writes_items cs us -> Pi cs us -> Pi (c :: cs) (ks ++ us).
  Proof.
    intros c cs ks us _ H WI HI x y L B F. split; [discriminate|]. destruct (lays_app _ _ _ _ L) as (z & L1 & L2).
    pose proof (proj1 (proj2 (proj2 fits_all)) _ _ WI) as FI. cbn [map].
    eapply rp_more; [apply (H x z L1); [eapply fit_bare; eauto|]|apply (HI z y L2 B F)]. apply item3. eapply fit_head; eauto.
  Qed.
  Lemma item_w : forall n a qs ks us, writes_named n a ks -> Pn n a ks -> writes_quants qs us -> Pqs qs us -> Pw 3 (CLeaf n a qs) (ks ++ us).
  Proof.
    intros n a qs ks us WN HN WQ HQ x y L B F. destruct (lays_app _ _ _ _ L) as (z & L1 & L2).
    pose proof (proj1 (proj2 (proj2 (proj2 (proj2 (proj2 fits_all))))) _ _ WQ) as [FS FQ].
    cbn [level]. eapply ok_weak; [intros v V; apply item_ast; exact V|]. rul. apply seq_ok.
    econstructor; [apply (HN x z L1)|econstructor; [|constructor]].
    - eapply lays_bare; eauto.
    - destruct FQ as [->|ST]; [inversion L2; subst; apply f34; auto|]. apply fq4, quantq. eapply lays_starts; eauto.
    - apply reps_ok; [apply (HQ z y L2 B F)|lia].
  Qed.
  Lemma choice_w : forall cs ks, writes_list "|" 2 cs ks -> Pl "|" 2 cs ks -> Pw 1 (leveled CChoice cs) ks.
  Proof.
    intros cs ks _ H x y L B F. cbn [level]. eapply ok_weak; [intros v V; apply choice_ast; exact V|]. rul.
    apply delim_ok. apply (H x y L B); auto.
  Qed.
  Lemma stack_w : forall cs ks, writes_list ">" 1 cs ks -> Pl ">" 1 cs ks -> Pw 0 (leveled CStack cs) ks.
  Proof.
    intros cs ks _ H x y L B F. cbn [level]. eapply ok_weak; [intros v V; apply stack_ast; exact V|]. rul.
    apply delim_ok. apply (H x y L B); auto.
  Qed.
  Lemma seq_w : forall cs ks, writes_items cs ks -> Pi cs ks -> Pw 2 (CSeq cs) ks.
  Proof.
    intros cs ks _ H x y L B F. destruct (H x y L B F) as [NE R]. cbn [level]. eapply ok_weak; [intros v V; apply seq_ast; [exact NE|exact V]|]. rul.
    apply reps_ok; [exact R|]. rewrite map_length. destruct cs; [congruence|cbn; lia].
  Qed.
  Lemma named_bare_w : forall a ks, writes_atom a ks -> Pa a ks -> Pn "" a ks.
  Proof.
    intros a ks _ H x y L B F. destruct (H x y L B F) as [O N]. eapply ok_weak; [intros v V; apply named_bare; exact V|]. rul.
    apply seq_ok. econstructor; [apply opt_none; exact N|]. econstructor; [exact O|constructor].
  Qed.
  Lemma named_name_w : forall t a ks, name_token t -> writes_atom a ks -> Pa a ks -> Pn (sb t) a (Name t :: Sign "=" :: ks).
  Proof.
    intros t a ks NT WA H x y L B F. apply lays_cons in L as (w & z & -> & WH & G & L2). pose proof L2 as L2'.
    apply lays_cons in L2 as (w2 & z2 & -> & WH2 & _ & L3). cbn [spelling] in *.
    pose proof (proj1 (proj2 (proj2 (proj2 (proj2 fits_all)))) _ _ WA) as FA.
    assert (B3 : TokenProofs.bare z2) by (eapply fit_bare; eauto).
    destruct (H z2 y L3 B F) as [O _]. eapply ok_weak; [intros v V; apply named_name; exact V|]. rul.
    apply seq_ok. econstructor; [apply opt_some|econstructor; [exact O|constructor]]. apply seq_ok.
    econstructor; [apply name_ok; auto; eapply sign_bare; [exact L2'|sgn]|]. econstructor; [|constructor]. apply named_ok, sign_ok; auto. ins.
  Qed.

  (** * Atoms *)
  Ltac alt i := eapply (oneof_ok E s0 _ i); [reflexivity|cbn [firstn]; repeat apply Forall_cons; try apply Forall_nil|].
  Lemma name_item : forall t x, name_token t -> headed name_start (t ++ x).
  Proof. intros t x H. destruct (name_head t H) as (c & t' & -> & N). apply headed_cons. auto. Qed.
  Lemma name_not_commit : ~ commits [W] (TRule "IDENT").
  Proof.
    intros C. inversion C; subst. match goal with X : rule_body _ _ _ _ |- _ => inversion X; subst end.
    - match goal with X : lookup _ _ = Some _ |- _ => vm_compute in X; inversion X; subst end.
      match goal with X : alias_body _ _ _ |- _ => inversion X; subst end. match goal with X : commits _ (TRE _) |- _ => inversion X end.
    - match goal with X : lookup _ _ = None |- _ => vm_compute in X; discriminate end.
  Qed.
  Lemma no_name_start : forall f x, blocks f ident_re = true -> headed f x -> no_name x.
  Proof. intros f x B H. apply seq_no. eapply ident_no; eauto. Qed.
  Lemma atom_rule_w : forall t, name_token t -> Pa (CRule (sb t)) [Name t].
  Proof.
    intros t NT x y L B F. apply lays_cons in L as (w & z & -> & WH & G & L2). apply lays_nil in L2 as ->. cbn [spelling]. split.
    - eapply ok_weak; [intros v V; apply atom_rule; exact V|]. rul. alt 0. apply name_ok; auto.
    - eapply seq_no2; [apply name_not_commit|apply name_ok; auto|]. apply named_no. nsign F.
  Qed.
  Lemma string_item : forall t x, string_token t -> headed (fun c => member c [""""; "'"; "`"]%char) (t ++ x).
  Proof. intros t x H. destruct (string_head t H) as (c & t' & -> & N). apply headed_cons. auto. Qed.
  Lemma atom_lit_w : forall t v, string_token t -> parse_string t = Some v -> Pa (CLit v) [Text t].
  Proof.
    intros t v ST PS x y L B F. apply lays_cons in L as (w & z & -> & WH & G & L2). apply lays_nil in L2 as ->. cbn [spelling].
    pose proof (string_item t (w ++ y) ST) as HD. split.
    - eapply ok_weak; [intros u V; eapply atom_lit; [exact PS|exact V]|]. rul. alt 1.
      + eapply ident_no; [|exact HD]. blk.
      + apply text_ok; auto.
    - eapply no_name_start; [|exact HD]. blk.
  Qed.
  Lemma regexp_item : forall t x, regexp_token t -> headed (fun c => piece_start c || Ascii.eqb c "/") (t ++ x).
  Proof. intros t x H. destruct (regexp_head t H) as (c & t' & -> & N). apply headed_cons. auto. Qed.
  Lemma atom_re_w : forall t v, regexp_token t -> parse_regexp t = Some v -> Pa (CRe v) [Regexp t].
  Proof.
    intros t v ST PS x y L B F. apply lays_cons in L as (w & z & -> & WH & G & L2). apply lays_nil in L2 as ->. cbn [spelling].
    pose proof (regexp_item t (w ++ y) ST) as HD. split.
    - eapply ok_weak; [intros u V; eapply atom_re; [exact PS|exact V]|]. rul. alt 2.
      + apply ident_no_regexp; auto.
      + eapply str_no; [|exact HD]. blk.
      + apply regexp_ok; auto.
    - apply seq_no. apply ident_no_regexp; auto.
  Qed.
  Definition percent (c : ascii) : bool := Ascii.eqb c "%".
  Definition paren (c : ascii) : bool := Ascii.eqb c "(".
  Ltac three H := first [solve [eapply ident_no; [|exact H]; blk] | solve [eapply str_no; [|exact H]; blk] | solve [eapply regexp_no; [|exact H]; blk]].
  Lemma atom_ext_w : forall t, name_token t -> Pa (CExt (sb t)) [Sign "%%"; Name t].
  Proof.
    intros t NT x y L B F. apply lays_cons in L as (w & z & -> & WH & _ & L2). pose proof L2 as L2'. apply lays_cons in L2 as (w2 & z2 & -> & WH2 & G & L3).
    apply lays_nil in L3 as ->. cbn [spelling] in *.
    assert (HD : headed percent (bs "%%" ++ w ++ t ++ w2 ++ y)) by (apply headed_cons; reflexivity).
    assert (B2 : TokenProofs.bare (t ++ w2 ++ y)) by (eapply lays_bare; [exact L2'| |exact B]; solids). split.
    - eapply ok_weak; [intros v V; apply atom_ext; exact V|]. rul. alt 4; try three HD.
      + apply macro_no. reflexivity.
      + apply named_ok, seq_ok. econstructor; [apply cut_ok, sign_ok; auto; ins|]. econstructor; [apply name_ok; auto|constructor].
    - eapply no_name_start; [|exact HD]. blk.
  Qed.
  Lemma percent_other : forall w z c, forallb white w = true -> headed name_start z -> In c ["%"; "!"]%char -> has_prefix ["%"%char; c] (bs "%" ++ w ++ z) = false.
  Proof.
    intros w z c WH H I. change (has_prefix [c] (w ++ z) = false).
    apply (headed_prefix (fun c => white c || name_start c)); [destruct I as [<-|[<-|[]]]; reflexivity|]. apply white_headed; auto.
  Qed.
  Lemma ref_w : forall t ks x y (P R : tree -> Prop), name_token t -> lays (Sign "%" :: Name t :: ks) y x -> TokenProofs.bare y -> Forall solid ks ->
    (forall z, lays ks y z -> ok (Opt (TSeq [S_ "="; Eq_ "default" (TRule "STR")])) z y P) ->
    (forall v, nodes [leafy (bs "%"); word "IDENT" t; P] v -> R v) -> ok (TRule "atom") x y (chose 5 R) /\ no_name x.
  Proof.
    intros t ks x y P R NT L B FS HO HR. apply lays_cons in L as (w & z & -> & WH & _ & L2). pose proof L2 as L2'. apply lays_cons in L2 as (w2 & z2 & -> & WH2 & G & L3).
    cbn [spelling] in *.
    assert (HD : headed percent (bs "%" ++ w ++ t ++ w2 ++ z2)) by (apply headed_cons; reflexivity).
    assert (HN : headed name_start (t ++ w2 ++ z2)) by (apply name_item; auto).
    assert (B2 : TokenProofs.bare (t ++ w2 ++ z2)) by (eapply lays_bare; [exact L2'| |exact B]; solids; auto).
    assert (B3 : TokenProofs.bare z2) by (eapply lays_bare; [exact L3|auto|exact B]). split.
    - rul. alt 5; try three HD.
      + apply macro_no. apply percent_other; cbn; auto.
      + apply named_no, seq_no, cut_no. apply sign_other; auto; [ins|]. apply (percent_other w _ "%"); cbn; auto.
      + rul. eapply ok_weak; [exact HR|]. apply seq_ok. econstructor; [apply cut_ok, sign_ok; auto; ins|]. econstructor; [apply name_ok; auto|].
        econstructor; [apply HO; exact L3|constructor].
    - eapply no_name_start; [|exact HD]. blk.
  Qed.
  Lemma atom_ref_w : forall t, name_token t -> Pa (CRef (sb t) None) [Sign "%"; Name t].
  Proof.
    intros t NT x y L B F. edestruct (ref_w t [] x y (nodes []) (ref_ast t None)) as [O N]; auto.
    - intros z LZ. apply lays_nil in LZ as ->. apply opt_none, seq_no. nsign F.
    - apply ref_plain.
    - split; auto. eapply ok_weak; [|exact O]. apply atom_ref.
  Qed.
  Lemma atom_ref_default_w : forall t d v, name_token t -> string_token d -> parse_string d = Some v -> Pa (CRef (sb t) (Some v)) [Sign "%"; Name t; Sign "="; Text d].
  Proof.
    intros t d v NT ST PS x y L B F. edestruct (ref_w t [Sign "="; Text d] x y (nodes [nodes [leafy (bs "="); word "STR" d]]) (ref_ast t (Some d))) as [O N]; auto.
    - solids.
    - intros z LZ. apply lays_cons in LZ as (w & z' & -> & WH & _ & L2). pose proof L2 as L2'. apply lays_cons in L2 as (w2 & z2 & -> & WH2 & G & L3).
      apply lays_nil in L3 as ->. cbn [spelling] in *. apply opt_some, seq_ok.
      econstructor; [apply sign_ok; auto; [ins|eapply lays_bare; [exact L2'| |exact B]; solids]|].
      econstructor; [apply named_ok, text_ok; auto|constructor].
    - apply ref_default.
    - split; auto. eapply ok_weak; [|exact O]. intros u U. eapply atom_ref_default; eauto. destruct (string_head d ST) as (c & d' & -> & _). discriminate.
  Qed.
  Lemma paren_bare : forall y x, lays [Sign ")"] y x -> TokenProofs.bare x /\ headed f0 x /\ (TokenProofs.bare y -> ok (S_ ")") x y (leafy (bs ")"))).
  Proof.
    intros y x L. split; [eapply sign_bare; [exact L|sgn]|]. apply lays_cons in L as (w & z & -> & WH & _ & L2). apply lays_nil in L2 as ->. cbn [spelling]. split.
    - apply headed_cons. reflexivity.
    - intros B. apply sign_ok; auto. ins.
  Qed.
  Lemma five_no : forall x, headed paren x -> Forall (fun u => no u x)
    [TRule "IDENT"; TRule "STR"; TRule "RE"; TRule "macrocall"; Eq_ "ExtRef" (TSeq [TCut (S_ "%%"); TRule "IDENT"]); TRule "REF"].
  Proof.
    intros x HD. repeat apply Forall_cons; try apply Forall_nil; try three HD.
    - apply macro_no. eapply headed_prefix; [|exact HD]. reflexivity.
    - apply named_no, seq_no, cut_no. nsign HD.
    - eapply ref_no; [|exact HD]. blk.
  Qed.
  Lemma atom_look_w : forall c ks, writes 0 c ks -> Pw 0 c ks -> Pa (CLook (CSeq [c])) (Sign "(?=" :: ks ++ [Sign ")"]).
  Proof.
    intros c ks WR H x y L B F. apply lays_cons in L as (w & z & -> & WH & _ & L2). destruct (lays_app _ _ _ _ L2) as (z2 & L3 & L4).
    destruct (paren_bare _ _ L4) as (B2 & F2 & O2). pose proof (proj1 fits_all _ _ _ WR) as FI. cbn [spelling].
    assert (HD : headed paren (bs "(?=" ++ w ++ z)) by (apply headed_cons; reflexivity). split.
    - eapply ok_weak; [intros v V; apply atom_look; exact V|]. rul. eapply (oneof_ok E s0 _ 6); [reflexivity|apply five_no; auto|].
      apply seq_ok. econstructor; [apply cut_ok, sign_ok; auto; [ins|eapply fit_bare; eauto]|].
      econstructor; [apply named_ok; apply (H z z2 L3 B2 F2)|]. econstructor; [apply O2; auto|constructor].
    - eapply no_name_start; [|exact HD]. blk.
  Qed.
  Lemma look_no : forall w z f, forallb white w = true -> headed f z -> f "?"%char = false -> no (TSeq [TCut (S_ "(?="); Eq_ "lookahead" (TRule "term"); S_ ")"]) (bs "(" ++ w ++ z).
  Proof.
    intros w z f WH H Q. apply seq_no, cut_no. apply sign_other; auto; [ins|]. change (has_prefix ["?"; "="]%char (w ++ z) = false).
    apply (headed_prefix (fun c => white c || f c)); [rewrite Q; reflexivity|]. apply white_headed; auto.
  Qed.
  Lemma atom_group_w : forall c ks, writes 0 c ks -> Pw 0 c ks -> Pa (CGroup c) (Sign "(" :: ks ++ [Sign ")"]).
  Proof.
    intros c ks WR H x y L B F. apply lays_cons in L as (w & z & -> & WH & _ & L2). destruct (lays_app _ _ _ _ L2) as (z2 & L3 & L4).
    destruct (paren_bare _ _ L4) as (B2 & F2 & O2). pose proof (proj1 fits_all _ _ _ WR) as FI. cbn [spelling].
    assert (HD : headed paren (bs "(" ++ w ++ z)) by (apply headed_cons; reflexivity). split.
    - eapply ok_weak; [intros v V; apply atom_group; exact V|]. rul. eapply (oneof_ok E s0 _ 7); [reflexivity| |].
      + apply (Forall_app _ [_; _; _; _; _; _] [_]). split; [apply five_no; auto|]. constructor; [|constructor].
        eapply look_no; auto; [eapply fit_head; eauto|reflexivity].
      + apply seq_ok. econstructor; [apply sign_ok; auto; [ins|eapply fit_bare; eauto]|].
        econstructor; [apply (H z z2 L3 B2 F2)|]. econstructor; [apply O2; auto|constructor].
    - eapply no_name_start; [|exact HD]. blk.
  Qed.
  Lemma atom_none_w : Pa CNone [Sign "("; Sign ")"].
  Proof.
    intros x y L B F. apply lays_cons in L as (w & z & -> & WH & _ & L2).
    destruct (paren_bare _ _ L2) as (B2 & F2 & O2). cbn [spelling].
    assert (HD : headed paren (bs "(" ++ w ++ z)) by (apply headed_cons; reflexivity). split.
    - eapply ok_weak; [intros v V; apply atom_none; exact V|]. rul. eapply (oneof_ok E s0 _ 8); [reflexivity| |].
      + apply (Forall_app _ [_; _; _; _; _; _] [_; _]). split; [apply five_no; auto|]. constructor; [|constructor; [|constructor]].
        * eapply look_no; auto; [exact F2|reflexivity].
        * eapply seq_no2; [intros C; inversion C|apply sign_ok; auto; ins|]. apply term_no. apply f12, f01. auto.
      + apply seq_ok. econstructor; [apply sign_ok; auto; ins|]. econstructor; [apply O2; auto|constructor].
    - eapply no_name_start; [|exact HD]. blk.
  Qed.

  (** * Quantifiers *)
  Lemma quant_op_w : forall c q, In (c, q) [("*", QRep 0 0 false); ("?", QRep 0 1 false); ("+", QRep 1 0 true)] -> Pq q [Sign c].
  Proof.
    intros c q I x y L B F. apply lays_cons in L as (w & z & -> & WH & _ & L2). apply lays_nil in L2 as ->. cbn [spelling].
    eapply ok_weak; [intros v V; eapply quant_op; [exact I|exact V]|]. rul. alt 0. apply named_ok. eapply re_ok; auto; [apply k_rep_op|].
    destruct I as [Q|[Q|[Q|[]]]]; inversion Q; subst; apply takes_rep_op; cbn; auto.
  Qed.
  Lemma bound_w : forall nm k ks z y, writes_bound k ks -> lays ks y z -> TokenProofs.bare y -> headed (fun c => member c [","; "}"]%char) y ->
    exists t, bound_is t k /\ ok (Opt (Eq_ nm (TRule "INT"))) z y (bound_tree t).
  Proof.
    intros nm k ks z y WB L B F. destruct WB as [|t k IT NU IS].
    - apply lays_nil in L as ->. exists None. split; [reflexivity|]. apply opt_none, named_no. eapply int_no; [|exact F]. blk.
    - apply lays_cons in L as (w & z2 & -> & WH & G & L2). apply lays_nil in L2 as ->. exists (Some t). split; [split; auto|]. apply opt_some, named_ok, number_ok; auto.
  Qed.
  Lemma range_w : forall ks mx us x y kmin, lays (Sign "{" :: ks ++ Sign "," :: us ++ [Sign "}"]) y x -> TokenProofs.bare y -> writes_bound kmin ks -> writes_bound mx us ->
    exists tmin tmax, bound_is tmin kmin /\ bound_is tmax mx /\ (ks = [] -> tmin = None) /\ (forall t, ks = [Number t] -> tmin = Some t) /\
      ok (TRule "quant") x y (chose 1 (nodes [leafy (bs "{"); bound_tree tmin; leafy (bs ","); bound_tree tmax; leafy (bs "}")])).
  Proof.
    intros ks mx us x y kmin L B W1 W2. apply lays_cons in L as (w & z & -> & WH & _ & L2). destruct (lays_app _ _ _ _ L2) as (z2 & L3 & L4).
    pose proof L4 as L4'. apply lays_cons in L4 as (w4 & z4 & -> & WH4 & _ & L5). destruct (lays_app _ _ _ _ L5) as (z6 & L6 & L7). pose proof L7 as L7'.
    apply lays_cons in L7 as (w7 & z7 & -> & WH7 & _ & L8). apply lays_nil in L8 as ->. cbn [spelling] in *.
    assert (B7 : TokenProofs.bare (bs "}" ++ w7 ++ y)) by (eapply sign_bare; [exact L7'|sgn]).
    assert (B4 : TokenProofs.bare (bs "," ++ w4 ++ z4)) by (eapply sign_bare; [exact L4'|sgn]).
    assert (B5 : TokenProofs.bare z4) by (eapply lays_bare; [exact L6|eapply bound_solid; eauto|auto]).
    assert (B2 : TokenProofs.bare z) by (eapply lays_bare; [exact L3|eapply bound_solid; eauto|auto]).
    assert (M1 : exists t, bound_is t kmin /\ (ks = [] -> t = None) /\ (forall u, ks = [Number u] -> t = Some u) /\ ok (Opt (Eq_ "min" (TRule "INT"))) z (bs "," ++ w4 ++ z4) (bound_tree t)).
    { assert (F : headed (fun c => member c [","; "}"]%char) (bs "," ++ w4 ++ z4)) by (apply headed_cons; reflexivity).
      destruct W1 as [|t k IT NU IS].
      - apply lays_nil in L3 as ->. exists None. repeat split; [intros; discriminate|]. apply opt_none, named_no. eapply int_no; [|exact F]. blk.
      - apply lays_cons in L3 as (w3 & z3 & -> & WH3 & G & L9). apply lays_nil in L9 as ->. exists (Some t). split; [split; auto|]. split; [discriminate|].
        split; [intros u Q; inversion Q; auto|]. apply opt_some, named_ok, number_ok; auto. }
    destruct M1 as (tmin & I1 & N1 & N2 & O1).
    destruct (bound_w "max" mx us z4 _ W2 L6 B7 ltac:(apply headed_cons; reflexivity)) as (tmax & I2 & O2).
    exists tmin, tmax. repeat split; auto. assert (HD : headed (fun c => Ascii.eqb c "{") (bs "{" ++ w ++ z)) by (apply headed_cons; reflexivity). rul. alt 1.
    - apply named_no. eapply re_no; [exact same|apply W_blank|apply k_rep_op|]. eapply blocked; [|exact HD]. blk.
    - apply seq_ok. econstructor; [apply sign_ok; auto; ins|]. econstructor; [exact O1|]. econstructor; [apply sign_ok; auto; ins|].
      econstructor; [exact O2|]. econstructor; [apply sign_ok; auto; ins|constructor].
  Qed.
  Lemma quant_upto_w : forall mx ks, writes_bound mx ks -> Pq (QRep 0 mx false) (Sign "{" :: Sign "," :: ks ++ [Sign "}"]).
  Proof.
    intros mx ks WB x y L B F. destruct (range_w [] mx ks x y 0 L B wb_none WB) as (tmin & tmax & I1 & I2 & N & _ & O).
    rewrite (N eq_refl) in *. eapply ok_weak; [|exact O]. intros v V. apply (quant_range None tmax v 0 mx I1 I2 V).
  Qed.
  Lemma quant_range_w : forall t mn mx ks, int_token t -> numeral t mn -> is_int mn -> writes_bound mx ks ->
    Pq (QRep mn mx (negb (String.eqb (sb t) "0"))) (Sign "{" :: Number t :: Sign "," :: ks ++ [Sign "}"]).
  Proof.
    intros t mn mx ks IT NU IS WB x y L B F. destruct (range_w [Number t] mx ks x y mn L B (wb_some t mn IT NU IS) WB) as (tmin & tmax & I1 & I2 & _ & N & O).
    rewrite (N t eq_refl) in *. eapply ok_weak; [|exact O]. intros v V. apply (quant_range (Some t) tmax v mn mx I1 I2 V).
  Qed.
  Lemma comma_w : forall nm b z y f, lays (comma b) y z -> TokenProofs.bare y -> (b = false -> headed f y) -> blocks f (lit_re (bs ",")) = true ->
    ok (Opt (Eq_ nm (S_ ","))) z y (comma_tree b).
  Proof.
    intros nm [] z y f L B F BL; cbn [comma comma_tree] in *.
    - apply lays_cons in L as (w & z2 & -> & WH & _ & L2). apply lays_nil in L2 as ->. apply opt_some, named_ok, sign_ok; auto. ins.
    - apply lays_nil in L as ->. apply opt_none, named_no. eapply not_sign; [ins|exact BL|auto].
  Qed.
  Lemma comma_bare : forall b z y, lays (comma b) y z -> TokenProofs.bare y -> TokenProofs.bare z.
  Proof. intros b z y L B. eapply lays_bare; eauto. apply comma_solid. Qed.
  Lemma comma_head : forall b z y (f : ascii -> bool), lays (comma b) y z -> headed f y -> headed (fun c => f c || Ascii.eqb c ",") z.
  Proof.
    intros [] z y f L F; cbn [comma] in L; [|apply lays_nil in L as ->; eapply headed_weak; [|exact F]; intros c ->; auto].
    eapply lays_starts; [exact L|]. eexists. eexists. split; [reflexivity|]. rewrite Ascii.eqb_refl. apply orb_true_r.
  Qed.
  Lemma quant_list_w : forall op a name sep l r ks, direction op a -> writes_named name sep ks -> Pn name sep ks ->
    Pq (QList a name sep l r) (Sign op :: comma l ++ ks ++ comma r).
  Proof.
    intros op a name sep l r ks D WN H x y L B F. apply lays_cons in L as (w & z & -> & WH & _ & L2).
    destruct (lays_app _ _ _ _ L2) as (z2 & L3 & L4). destruct (lays_app _ _ _ _ L4) as (z5 & L5 & L6). cbn [spelling].
    pose proof (proj1 (proj2 (proj2 (proj2 fits_all))) _ _ _ WN) as FN.
    assert (B6 : TokenProofs.bare z5) by (eapply comma_bare; eauto). assert (B5 : TokenProofs.bare z2) by (eapply fit_bare; eauto).
    assert (F5 : headed f4 z5) by (eapply comma_head; eauto).
    assert (I2 : headed item_start z2) by (eapply fit_head; eauto).
    assert (B3 : TokenProofs.bare z) by (eapply comma_bare; eauto).
    assert (HD : headed (fun c => member c [":"; "<"]%char) (bs op ++ w ++ z)) by (destruct D; apply headed_cons; reflexivity).
    eapply ok_weak; [intros v V; eapply quant_list; [exact D|exact V]|]. rul. alt 2.
    - apply named_no. eapply re_no; [exact same|apply W_blank|apply k_rep_op|]. eapply blocked; [|exact HD]. blk.
    - apply seq_no. nsign HD.
    - apply seq_ok. econstructor; [apply named_ok; eapply re_ok; auto; [apply k_list_op|]|].
      + eapply takes_list_op; [exact D|]. pose proof (comma_head _ _ _ _ L3 I2) as HZ.
        eapply headed_weak; [|apply white_headed; [exact WH|exact HZ]].
        apply (include_chars (fun c => white c || (item_start c || Ascii.eqb c ","))). blk.
      + econstructor; [eapply comma_w; [exact L3|auto|intros _; exact I2|blk]|].
        econstructor; [apply (H z2 z5 L5 B6 F5)|]. econstructor; [eapply comma_w; [exact L6|auto|intros _; exact F|blk]|constructor].
  Qed.
  Lemma quants_end_w : Pqs [] [].
  Proof. intros x y L B F. apply lays_nil in L as ->. constructor. apply quant_no. auto. Qed.
  Lemma quants_next_w : forall q qs ks us, writes_quant q ks -> Pq q ks -> writes_quants qs us -> Pqs qs us -> Pqs (q :: qs) (ks ++ us).
  Proof.
    intros q qs ks us _ H WQ HQ x y L B F. destruct (lays_app _ _ _ _ L) as (z & L1 & L2).
    pose proof (proj1 (proj2 (proj2 (proj2 (proj2 (proj2 fits_all))))) _ _ WQ) as [FS FQ]. cbn [map].
    eapply rp_more; [apply (H x z L1)|apply (HQ z y L2 B F)].
    - eapply lays_bare; eauto.
    - destruct FQ as [->|ST]; [apply lays_nil in L2 as ->; apply f3q; auto|]. apply quantq. eapply lays_starts; eauto.
  Qed.

  Theorem terms_ok : forall n c ks, writes n c ks -> Pw n c ks.
  Proof.
    apply (writes_m Pw Pl Pi Pn Pa Pqs Pq).
    - exact stack_w.
    - exact choice_w.
    - exact seq_w.
    - exact item_w.
    - exact list_wl_one.
    - exact list_wl_more.
    - exact items_one.
    - exact items_more.
    - exact named_bare_w.
    - exact named_name_w.
    - exact atom_rule_w.
    - exact atom_lit_w.
    - exact atom_re_w.
    - exact atom_ref_w.
    - exact atom_ref_default_w.
    - exact atom_ext_w.
    - exact atom_look_w.
    - exact atom_group_w.
    - exact atom_none_w.
    - exact quants_end_w.
    - exact quants_next_w.
    - apply (quant_op_w "*"). cbn. auto.
    - apply (quant_op_w "?"). cbn. auto.
    - apply (quant_op_w "+"). cbn. auto.
    - exact quant_upto_w.
    - exact quant_range_w.
    - exact quant_list_w.
  Qed.

  (** * Statements *)
  Lemma prod_w : forall t c ks x y, name_token t -> writes 0 c ks -> lays (Name t :: Sign "->" :: ks ++ [Sign ";"]) y x -> TokenProofs.bare y ->
    ok (TRule "prod") x y (prod_ast (sb t) c).
  Proof.
    intros t c ks x y NT WR L B. apply lays_cons in L as (w & z & -> & WH & G & L1). cbn [spelling].
    pose proof (sign_bare _ _ _ _ L1 ltac:(sgn)) as B1. apply lays_cons in L1 as (w2 & z2 & -> & WH2 & _ & L2). cbn [spelling] in *.
    destruct (lays_app _ _ _ _ L2) as (z3 & L3 & L4). pose proof (sign_bare _ _ _ _ L4 ltac:(sgn)) as B3.
    apply lays_cons in L4 as (w4 & z4 & -> & WH4 & _ & L5). apply lays_nil in L5 as ->. cbn [spelling] in *.
    assert (F : headed f0 (bs ";" ++ w4 ++ y)) by (apply headed_cons; reflexivity).
    pose proof (proj1 fits_all _ _ _ WR) as FI.
    eapply ok_weak; [intros v V; apply prod_reads; exact V|]. rul. apply seq_ok.
    econstructor; [apply name_ok; auto|]. econstructor; [apply cut_ok, sign_ok; auto; [ins|eapply fit_bare; eauto]|].
    apply sq_next with (z := bs ";" ++ w4 ++ y); [|econstructor; [apply cut_ok, sign_ok; auto; ins|constructor]].
    apply (reps_ok E s0) with (Ps := [term_ast 0 c]); [|auto].
    eapply rp_more; [exact (terms_ok _ _ _ WR _ _ L3 B3 F)|]. apply rp_end. apply term_no. apply f12, f01. auto.
  Qed.
  Lemma rule_w : forall t c ks x y, name_token t -> writes 0 c ks -> lays (Name t :: Sign "->" :: ks ++ [Sign ";"]) y x -> TokenProofs.bare y ->
    ok (TRule "stmt") x y (stmt_ast (Rule (sb t) c)).
  Proof.
    intros t c ks x y NT WR L B. eapply ok_weak; [intros v V; apply stmt_rule; exact V|]. rul. alt 1.
    - apply lays_cons in L as (w & z & -> & _). eapply note_no; [|apply name_item; auto]. blk.
    - eapply prod_w; eauto.
  Qed.
  Lemma note_w : forall t w y, ~ In nl t -> forallb white w = true -> (w = [] /\ y = [] \/ exists w', w = nl :: w') -> TokenProofs.bare y ->
    ok (TRule "stmt") ((bs "//" ++ t) ++ w ++ y) y (stmt_ast (Note (bs "//" ++ t))).
  Proof. intros t w y N WH A B. eapply ok_weak; [intros v V; apply stmt_note; exact V|]. rul. alt 0. apply note_ok; auto. Qed.
  Lemma block_w : forall b w y, block_body b -> forallb white w = true -> TokenProofs.bare y -> ok (TRule "stmt") (block b ++ w ++ y) y (stmt_ast (Note (block b))).
  Proof. intros b w y N WH B. eapply ok_weak; [intros v V; apply stmt_note; exact V|]. rul. alt 0. apply block_ok; auto. Qed.
  Definition pragmas : grammar := match body "pragma" with TScoped _ g => g | _ => [] end.
  Lemma pragma_no : forall r sign ts x f, lookup r pragmas = Some (TSeq (TCut (TS sign) :: ts)) -> In sign signs -> blocks f (lit_re sign) = true -> headed f x -> no_in [pragmas; W] (TRule r) x.
  Proof.
    intros r sign ts x f L I BL HD vs rl s A. eapply P_rule; [eapply rb_here; [exact L|constructor; discriminate]|].
    refine (seq_no E s0 _ _ _ x _ vs r s A). apply cut_no. apply sign_no with (f := f); auto; reflexivity.
  Qed.
  Lemma stmt_end : no (TRule "stmt") [].
  Proof.
    assert (HD : headed (fun _ => false) []) by (intros ? ? ?; discriminate).
    ruln. apply oneof_no. repeat apply Forall_cons; try apply Forall_nil.
    - eapply note_no; [|exact HD]. blk.
    - ruln. apply seq_no. eapply ident_no; [|exact HD]. blk.
    - ruln. intros vs r s A. apply P_scoped. fold pragmas. refine (oneof_no E s0 _ _ [] _ vs _ s A).
      repeat apply Forall_cons; try apply Forall_nil; (eapply pragma_no; [vm_compute; reflexivity|ins| |exact HD]; blk).
  Qed.
  (** Other comments between slash-star and star-slash are no statements. *)
  Lemma block_end : forall x, (forall b y, x = b ++ bs "*/" ++ y -> ~ block_body b) -> no (TRule "stmt") (bs "/*" ++ x).
  Proof.
    intros x H. assert (HD : headed (fun c => Ascii.eqb c "/") (bs "/*" ++ x)) by (apply headed_cons; auto).
    ruln. apply oneof_no. repeat apply Forall_cons; try apply Forall_nil.
    - apply block_no. exact H.
    - ruln. apply seq_no. eapply ident_no; [|exact HD]. blk.
    - ruln. intros vs r s A. apply P_scoped. fold pragmas. refine (oneof_no E s0 _ _ _ _ vs _ s A).
      repeat apply Forall_cons; try apply Forall_nil; (eapply pragma_no; [vm_compute; reflexivity|ins| |exact HD]; blk).
  Qed.
  Lemma block_stops : forall w x, forallb white w = true -> At s0 (w ++ bs "/*" ++ x) -> (forall b y, x = b ++ bs "*/" ++ y -> ~ block_body b) ->
    means E W "grammar" s0 Fail.
  Proof.
    intros w x WH A H. eapply P_rule; [apply W_rule; [vm_compute; discriminate|intros ?; vm_compute; discriminate]|]. apply P_quant.
    refine (PR_stop E [W] _ "grammar" 1 0 (TRule "stmt") [] s0 (or_introl eq_refl) _). apply (block_end _ H).
    split; [intros c z HH; inversion HH; subst; reflexivity|]. exists w. auto.
  Qed.
  Lemma text_bare : forall ss x, writes_text ss x -> TokenProofs.bare x.
  Proof.
    intros ss x H. induction H as [|t c ks ss x y NT WR _ IH L|t ss w y N _ IH WH A|b ss w y BB _ IH WH].
    - intros ? ? ?; discriminate.
    - eapply lays_bare; eauto. pose proof (proj1 fits_all _ _ _ WR) as FI. solids.
    - intros c z HH. inversion HH; subst. reflexivity.
    - intros c z HH. inversion HH; subst. reflexivity.
  Qed.
  Lemma text_reps : forall ss x, writes_text ss x -> reps E s0 (TRule "stmt") x [] (map stmt_ast ss).
  Proof.
    intros ss x H. induction H as [|t c ks ss x y NT WR WT IH L|t ss w y N WT IH WH A|b ss w y BB WT IH WH]; cbn [map].
    - apply rp_end. apply stmt_end.
    - eapply rp_more; [|exact IH]. eapply rule_w; eauto. eapply text_bare; eauto.
    - eapply rp_more; [|exact IH]. apply note_w; auto. eapply text_bare; eauto.
    - eapply rp_more; [|exact IH]. apply block_w; auto. eapply text_bare; eauto.
  Qed.
  Lemma text_head : forall ss x, ss <> [] -> writes_text ss x -> exists c z, x = c :: z /\ white c = false.
  Proof.
    intros ss x N H. destruct H as [|t c ks ss x y NT WR WT L|t ss w y NN WT WH A|b ss w y BB WT WH]; [congruence| | |].
    - apply lays_cons in L as (w & z & -> & _). destruct (solid_name t NT) as (d & t' & Q & S). rewrite Q. exists d, (t' ++ w ++ z). auto.
    - eexists. eexists. split; reflexivity.
    - eexists. eexists. split; reflexivity.
  Qed.
  Theorem grammar_ok : forall ss w x, ss <> [] -> writes_text ss x -> forallb white w = true -> At s0 (w ++ x) ->
    exists vs s', means E W "grammar" s0 (Succ (Node "grammar" XNone vs) s') /\ At s' [] /\ nodes (map stmt_ast ss) (Node "grammar" XNone vs).
  Proof.
    intros ss w x N WT WH A. pose proof (text_bare _ _ WT) as B.
    assert (A0 : at_ s0 s0 x) by (split; auto; exists w; auto).
    destruct (reps_peg E s0 _ _ _ _ (text_reps _ _ WT) 1 [] "grammar" s0 [] A0) as (us & s' & D & (_ & w' & WH' & A' & C) & F).
    { rewrite map_length. destruct ss; [congruence|cbn [length]; lia]. }
    exists us, s'. split; [|split].
    - eapply P_rule; [apply W_rule; [vm_compute; discriminate|intros ?; vm_compute; discriminate]|]. apply P_quant. exact D.
    - destruct C as [->| ->]; auto. exfalso. destruct (text_head _ _ N WT) as (c & z & -> & NW).
      apply At_slice in A, A'. rewrite A in A'. injection A' as A'. rewrite app_nil_r in A'. subst w'.
      rewrite forallb_app in WH'. cbn [forallb] in WH'. rewrite NW, andb_false_r in WH'. discriminate.
    - eexists. eexists. split; [reflexivity|auto].
  Qed.
  (** * A last production without its semicolon *)
  Definition aborts (t : term) (x : bytes) : Prop := forall vs r s, at_ s0 s x -> peg E [W] vs r t s Abort.
  Lemma prod_unfinished : forall t c ks x, name_token t -> writes 0 c ks -> lays (Name t :: Sign "->" :: ks) [] x -> aborts (TRule "prod") x.
  Proof.
    intros t c ks x NT WR L vs r s A. apply lays_cons in L as (w & z & -> & WH & G & L1). cbn [spelling] in *.
    pose proof (sign_bare _ _ _ _ L1 ltac:(sgn)) as B1. apply lays_cons in L1 as (w2 & z2 & -> & WH2 & _ & L2). cbn [spelling] in *.
    pose proof (proj1 fits_all _ _ _ WR) as FI. assert (BN : TokenProofs.bare []) by (intros ? ? ?; discriminate).
    assert (F : headed f0 []) by (intros ? ? ?; discriminate).
    assert (HD : headed (fun _ => false) []) by (intros ? ? ?; discriminate).
    eapply P_rule; [apply W_rule; [vm_compute; discriminate|intros ?; vm_compute; discriminate]|]. apply P_seq.
    destruct (name_ok t w _ NT WH G B1 vs "" s A) as (v1 & s1 & D1 & A1 & _).
    eapply PS_next; [exact D1|right; split; [apply name_not_commit|reflexivity]|].
    assert (O2 : ok (TCut (S_ "->")) (bs "->" ++ w2 ++ z2) z2 (leafy (bs "->"))) by (apply cut_ok, sign_ok; auto; [ins|eapply fit_bare; eauto]).
    match goal with |- peg_seq _ _ ?vs' _ _ _ _ _ _ => destruct (O2 vs' "" s1 A1) as (v2 & s2 & D2 & A2 & _) end.
    eapply PS_next; [exact D2|left; split; [constructor|reflexivity]|].
    assert (O3 : ok (TQuant (TRule "term") 1 0) z2 [] (nodes [term_ast 0 c])).
    { apply (reps_ok E s0) with (Ps := [term_ast 0 c]); [|auto]. eapply rp_more; [exact (terms_ok _ _ _ WR _ _ L2 BN F)|]. apply rp_end. apply term_no. apply f12, f01. auto. }
    match goal with |- peg_seq _ _ ?vs' _ _ _ _ _ _ => destruct (O3 vs' "" s2 A2) as (v3 & s3 & D3 & A3 & _) end.
    eapply PS_next with (cut' := true); [exact D3|destruct (commits_dec _ _ _ _ _ _ _ D3); auto|].
    match goal with |- peg_seq _ _ ?vs' _ _ (?u :: ?l) ?acc _ _ => refine (PS_fail E [W] vs' true _ u l acc s3 _) end.
    assert (O4 : no (TCut (S_ ";")) []) by (apply cut_no; eapply sign_no with (f := fun _ => false); [apply W_blank|ins|blk|exact HD]).
    exact (O4 _ _ _ A3).
  Qed.
  Lemma stmt_unfinished : forall t c ks x, name_token t -> writes 0 c ks -> lays (Name t :: Sign "->" :: ks) [] x -> aborts (TRule "stmt") x.
  Proof.
    intros t c ks x NT WR L vs r s A. pose proof (prod_unfinished _ _ _ _ NT WR L) as H.
    eapply P_rule; [apply W_rule; [vm_compute; discriminate|intros ?; vm_compute; discriminate]|]. apply P_oneof.
    eapply PA_next; [|apply PA_abort; apply H; exact A].
    assert (O : no (TRule "COMMENT") x) by (apply lays_cons in L as (w & z & -> & _); eapply note_no; [|apply name_item; auto]; blk).
    exact (O _ _ _ A).
  Qed.
  Lemma unfinished_bare : forall x, unfinished x -> TokenProofs.bare x.
  Proof.
    assert (BN : TokenProofs.bare []) by (intros ? ? ?; discriminate).
    intros x H. induction H as [t c ks x NT WR L|t c ks x y NT WR _ IH L|t w y N _ IH WH|b w y BB _ IH WH].
    - eapply lays_bare; eauto. pose proof (proj1 fits_all _ _ _ WR) as FI. solids.
    - eapply lays_bare; eauto. pose proof (proj1 fits_all _ _ _ WR) as FI. solids.
    - intros c z HH. inversion HH; subst. reflexivity.
    - intros c z HH. inversion HH; subst. reflexivity.
  Qed.
  Lemma unfinished_stops : forall w x, forallb white w = true -> At s0 (w ++ x) -> unfinished x -> means E W "grammar" s0 Abort.
  Proof.
    intros w x WH A H. assert (A0 : at_ s0 s0 x) by (split; [apply unfinished_bare; auto|exists w; auto]). clear A WH w.
    eapply P_rule; [apply W_rule; [vm_compute; discriminate|intros ?; vm_compute; discriminate]|]. apply P_quant.
    change (peg_rep E [W] [] "grammar" 1 0 (TRule "stmt") [] s0 Abort).
    assert (G : forall vs acc s, at_ s0 s x -> peg_rep E [W] vs "grammar" 1 0 (TRule "stmt") acc s Abort); [|apply G; exact A0]. clear A0.
    induction H as [t c ks x NT WR L|t c ks x y NT WR U IH L|t w y N U IH WH|b w y BB U IH WH]; intros vs acc s A.
    - apply PR_abort; [left; reflexivity|]. exact (stmt_unfinished _ _ _ _ NT WR L vs "" s A).
    - destruct (rule_w t c ks x y NT WR L (unfinished_bare _ U) vs "" s A) as (v & s1 & D & A1 & _). eapply PR_more; [left; reflexivity|exact D|]. apply IH. exact A1.
    - destruct (note_w t (nl :: w) y N WH ltac:(right; eauto) (unfinished_bare _ U) vs "" s A) as (v & s1 & D & A1 & _). eapply PR_more; [left; reflexivity|exact D|]. apply IH. exact A1.
    - destruct (block_w b w y BB WH (unfinished_bare _ U) vs "" s A) as (v & s1 & D & A1 & _). eapply PR_more; [left; reflexivity|exact D|]. apply IH. exact A1.
  Qed.
End Reading.
