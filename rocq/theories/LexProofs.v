(** The tokens of the grammar language are what the regular expressions of the wbnf grammar match. *)
From Verif Require Import Base Scanner Syntax Engine Regex RegexProofs PegSpec WbnfGrammar StrLit NumSpec TextSpec TokenProofs LayoutSpec.
Local Open Scope list_scope.

(** * Characters, one by one *)
Definition all_chars : list ascii := map ascii_of_nat (seq 0 256).
Lemma all_chars_in : forall c, In c all_chars.
Proof.
  intros c. unfold all_chars. apply in_map_iff. exists (nat_of_ascii c). split; [apply ascii_nat_embedding|].
  apply in_seq. pose proof (nat_ascii_bounded c). lia.
Qed.
Lemma every : forall P : ascii -> bool, forallb P all_chars = true -> forall c, P c = true.
Proof. intros P H c. rewrite forallb_forall in H. apply H, all_chars_in. Qed.
Lemma same_chars : forall P Q : ascii -> bool, forallb (fun c => Bool.eqb (P c) (Q c)) all_chars = true -> forall c, P c = Q c.
Proof. intros P Q H c. apply Bool.eqb_prop. exact (every _ H c). Qed.
Lemma apart_chars : forall P Q : ascii -> bool, forallb (fun c => negb (P c && Q c)) all_chars = true -> forall c, P c = true -> Q c = false.
Proof. intros P Q H c p. pose proof (every _ H c) as A. simpl in A. rewrite p in A. destruct (Q c); auto. Qed.
Lemma include_chars : forall P Q : ascii -> bool, forallb (fun c => negb (P c) || Q c) all_chars = true -> forall c, P c = true -> Q c = true.
Proof. intros P Q H c p. pose proof (every _ H c) as A. simpl in A. rewrite p in A. destruct (Q c); auto. Qed.

Lemma white_space : forall c, white c = is_space c.
Proof. apply same_chars. vm_compute. reflexivity. Qed.
Lemma whites_spaces : forall w, forallb white w = forallb is_space w.
Proof. induction w as [|c w IH]; simpl; auto. rewrite white_space, IH. auto. Qed.
Lemma wordly_set : forall c, wordly c = in_set false word_ranges c.
Proof. apply same_chars. vm_compute. reflexivity. Qed.
Lemma digit_set : forall c, digit c = in_set false digit_ranges c.
Proof. apply same_chars. vm_compute. reflexivity. Qed.

(** Texts that begin with certain characters only, if at all. *)
Definition headed (f : ascii -> bool) (x : bytes) : Prop := forall c y, x = c :: y -> f c = true.
Lemma headed_cons : forall f c x, f c = true -> headed f (c :: x).
Proof. intros f c x F d y H. inversion H; subst. auto. Qed.
Lemma headed_weak : forall (f g : ascii -> bool) x, (forall c, f c = true -> g c = true) -> headed f x -> headed g x.
Proof. intros f g x FG H c y Q. apply FG. apply (H c y Q). Qed.
Definition blocks (f : ascii -> bool) (r : re) : bool := negb (nullable r) && forallb (fun c => negb (f c && begins r c)) all_chars.
Lemma blocked : forall f r x, blocks f r = true -> headed f x -> dead r x.
Proof.
  intros f r x B H. unfold blocks in B. apply andb_true_iff in B as [N B]. apply negb_true_iff in N. apply dead_stuck; auto.
  intros c y Q. apply (apart_chars _ _ B c). apply (H c y Q).
Qed.
Lemma white_headed : forall w x f, forallb white w = true -> headed f x -> headed (fun c => white c || f c) (w ++ x).
Proof.
  intros [|d w] x f W H c y Q; simpl in *.
  - rewrite (H c y Q). apply orb_true_r.
  - inversion Q; subst. apply andb_true_iff in W as [-> _]. auto.
Qed.
(** What may follow a token: white space, or something that is not glued to it. *)
Lemma follow : forall k w x, forallb white w = true -> (w = [] -> forall c z, x = c :: z -> glued k c = false) ->
  headed (fun c => white c || negb (glued k c)) (w ++ x).
Proof.
  intros k [|d w] x W G c y Q; simpl in *.
  - rewrite (G eq_refl c y Q). apply orb_true_r.
  - inversion Q; subst. apply andb_true_iff in W as [-> _]. auto.
Qed.

(** * Expressions of the tokens *)
Definition wrapped (pre : bytes) : bytes := bs "\s*" ++ bs "(?:" ++ pre ++ bs ")" ++ bs "\s*".
Definition inner (x : bytes) : re :=
  match parse_re (anchor ++ wrapped (group x)) with
  | Some (RCat _ (RCat _ (RCat (RCat (RGroup _ r) _) _)), _) => r
  | _ => REps
  end.
Definition parsed (x : bytes) : Prop := parse_re (anchor ++ wrapped (group x)) = Some (RCat (RAssert ABegText) (token_re (inner x)), 1%nat).
Definition ident_re : re := Eval vm_compute in inner (bs "@|\.?[A-Za-z_]\w*").
Definition int_re : re := Eval vm_compute in inner (bs "\d+").
Definition str_re : re := Eval vm_compute in inner (bs str_text).
Definition re_re : re := Eval vm_compute in inner (bs re_text).
Definition note_re : re := Eval vm_compute in inner (bs "//.*$|(?s:/\*(?:[^*]|\*+[^*/])\*/)").
Definition rep_op_re : re := Eval vm_compute in inner (bs "[?*+]").
Definition list_op_re : re := Eval vm_compute in inner (bs "<:|:>?").

Lemma takes_end : forall a t x, takes a t x -> takes (RCat a REps) t x.
Proof. intros a t x A. rewrite <- (app_nil_r t). apply takes_cat; [exact A|apply takes_eps]. Qed.
Lemma takes_cons : forall neg rs b c t x, in_set neg rs c = true -> takes b t x -> takes (RCat (RSet neg rs) b) (c :: t) x.
Proof. intros. change (c :: t) with ([c] ++ t). apply takes_cat; auto. apply takes_set. auto. Qed.
Lemma in_char : forall c d, in_set false [(c, c)] d = Ascii.eqb c d.
Proof. exact in_lit. Qed.
Lemma takes_char : forall c b t x, takes b t x -> takes (RCat (RSet false [(c, c)]) b) (c :: t) x.
Proof. intros. apply takes_cons; auto. rewrite (in_char c c). apply Ascii.eqb_refl. Qed.
Lemma not_in_set : forall c d l, in_set true ((d, d) :: l) c = negb (Ascii.eqb d c) && in_set true l c.
Proof.
  intros c d l. unfold in_set. cbn [existsb fst snd]. rewrite (cle_antisym d c). destruct (Ascii.eqb d c); auto.
Qed.
Lemma in_set_not : forall c l, (forall d, In d l -> c <> d) -> in_set true (map (fun d => (d, d)) l) c = true.
Proof.
  intros c l. induction l as [|d l IH]; intros H; auto. cbn [map]. rewrite not_in_set. rewrite IH by (intros e I; apply H; right; auto).
  destruct (Ascii.eqb_spec d c); auto. exfalso. apply (H d); [left; auto|auto].
Qed.

(** ** Names and numbers *)
Lemma takes_name : forall t y, name_token t -> headed (fun c => white c || negb (wordly c)) y -> takes ident_re t y.
Proof.
  intros t y [->|(dot & c & w & -> & D & L & W)] H.
  - apply takes_alt_l. apply takes_char, takes_eps.
  - assert (IW : takes (RCat (RSet false [("A"%char, "Z"%char); ("a"%char, "z"%char); ("_"%char, "_"%char)])
        (RCat (RStar true (RSet false word_ranges)) REps)) (c :: w) y).
    { apply takes_cons.
      - etransitivity; [|exact L]. apply (same_chars (in_set false [("A"%char, "Z"%char); ("a"%char, "z"%char); ("_"%char, "_"%char)]) letter).
        vm_compute. reflexivity.
      - apply takes_end, takes_run.
        + rewrite forallb_forall in *. intros d I. rewrite <- wordly_set. auto.
        + intros d z Q. rewrite <- wordly_set. specialize (H d z Q). cbn in H. apply orb_true_iff in H as [H|H].
          * apply (apart_chars white wordly); [vm_compute; reflexivity|auto].
          * apply negb_true_iff in H. auto. }
    apply takes_alt_r.
    + apply (blocked (fun c => letter c || Ascii.eqb c ".")); [vm_compute; reflexivity|].
      destruct D as [->| ->]; cbn [app]; apply headed_cons; [rewrite L; auto|auto].
    + destruct D as [->| ->].
      * cbn [app]. change (c :: w) with ([] ++ c :: w). apply takes_cat; auto. apply takes_opt_none.
        apply (blocked letter); [vm_compute; reflexivity|]. cbn [app]. apply headed_cons. auto.
      * apply takes_cat; auto. apply takes_opt. apply takes_end, takes_set. reflexivity.
Qed.
Lemma takes_int : forall t y, int_token t -> headed (fun c => white c || negb (wordly c)) y -> takes int_re t y.
Proof.
  intros t y [N D] H. destruct t as [|c t]; [congruence|]. cbn [forallb] in D. apply andb_true_iff in D as [D1 D2].
  apply takes_end. apply takes_cons.
  - rewrite digit_set in D1. auto.
  - apply takes_run.
    + rewrite forallb_forall in *. intros d I. specialize (D2 d I). rewrite digit_set in D2. auto.
    + intros d z Q. specialize (H d z Q). cbn in H. apply orb_true_iff in H as [H|H].
      * apply (apart_chars white (in_set false [("0"%char, "9"%char)])); [vm_compute; reflexivity|auto].
      * apply negb_true_iff in H. unfold wordly in H. apply orb_false_iff in H as [_ H]. rewrite digit_set in H. auto.
Qed.

(** ** Strings *)
Lemma quoted_units : forall q b, q <> "\"%char -> quoted q b -> exists us, b = concat us /\
  forall x, takes_many (RAlt (RCat (RSet false [("\"%char, "\"%char)]) (RCat (RSet true [(nl, nl)]) REps)) (RCat (RSet true [("\"%char, "\"%char); (q, q)]) REps)) us (q :: x).
Proof.
  intros q b NQ B. induction B as [|c b C B IH|c b C1 C2 B IH].
  - exists []. split; auto. intros x. constructor. apply dead_alt; apply dead_cat, dead_set; intros c y Q; inversion Q; subst.
    + rewrite (in_char "\" c). apply Ascii.eqb_neq. auto.
    + rewrite !not_in_set, (Ascii.eqb_refl c). apply andb_false_r.
  - destruct IH as (us & -> & T). exists (["\"%char; c] :: us). split; auto. intros x. constructor; auto; [discriminate|].
    apply takes_alt_l, takes_char, takes_end, takes_set. apply (in_set_not c [nl]). intros d [<-|[]]. auto.
  - destruct IH as (us & -> & T). exists ([c] :: us). split; auto. intros x. constructor; auto; [discriminate|].
    apply takes_alt_r.
    + apply dead_cat, dead_set. intros d y Q. inversion Q; subst. rewrite (in_char "\" d). apply Ascii.eqb_neq. auto.
    + apply takes_end, takes_set. apply (in_set_not c ["\"%char; q]). intros d [<-|[<-|[]]]; auto.
Qed.
Lemma raw_units : forall b, raw b -> exists us, b = concat us /\ forall x, headed (fun c => negb (Ascii.eqb c "`")) x ->
  takes_many (RAlt (RCat (RSet false [("`"%char, "`"%char)]) (RCat (RSet false [("`"%char, "`"%char)]) REps)) (RCat (RSet true [("`"%char, "`"%char)]) REps)) us ("`"%char :: x).
Proof.
  intros b B. induction B as [|b B IH|c b C B IH].
  - exists []. split; auto. intros x X. constructor. apply dead_alt.
    + intros st k Q. cbn [mt]. rewrite Q. cbn [mrest]. destruct (in_set _ _ _); auto. destruct x as [|c x]; auto.
      rewrite (in_char "`" c). specialize (X c x eq_refl). apply negb_true_iff in X. rewrite Ascii.eqb_sym, X. auto.
    + apply dead_cat, dead_set. intros c y Q. inversion Q. subst. reflexivity.
  - destruct IH as (us & -> & T). exists (["`"%char; "`"%char] :: us). split; auto. intros x X. constructor; auto; [discriminate|].
    apply takes_alt_l, takes_char, takes_char, takes_eps.
  - destruct IH as (us & -> & T). exists ([c] :: us). split; auto. intros x X. constructor; auto; [discriminate|].
    apply takes_alt_r.
    + apply dead_cat, dead_set. intros d y Q. inversion Q; subst. rewrite (in_char "`" d). apply Ascii.eqb_neq. auto.
    + apply takes_end, takes_set. apply (in_set_not c ["`"%char]). intros d [<-|[]]; auto.
Qed.
Lemma takes_string : forall t y, string_token t -> headed (fun c => white c || negb (glued (Text t) c)) y -> takes str_re t y.
Proof.
  intros t y [(q & b & I & -> & Q)|(b & -> & R)] H.
  - assert (NQ : q <> "\"%char) by (destruct I as [<-|[<-|[]]]; discriminate).
    destruct (quoted_units q b NQ Q) as (us & -> & M). apply takes_alt_l. destruct I as [<-|[<-|[]]].
    + apply takes_alt_l. apply takes_char. apply takes_cat; [apply takes_star, M|apply takes_char, takes_eps].
    + apply takes_alt_r. { apply dead_cat, dead_set. intros c z E. inversion E. reflexivity. }
      apply takes_char. apply takes_cat; [apply takes_star, M|apply takes_char, takes_eps].
  - destruct (raw_units b R) as (us & -> & M). apply takes_alt_r. { apply dead_alt; apply dead_cat, dead_set; intros c z E; inversion E; reflexivity. }
    apply takes_char. apply takes_cat; [|apply takes_char, takes_eps]. apply takes_star. cbn [app]. apply M.
    intros c z E. specialize (H c z E). cbn in H. destruct (Ascii.eqb_spec c "`"); [subst; discriminate|auto].
Qed.

(** ** Regular expressions *)
Definition class_item : re := Eval vm_compute in
  match re_re with RAlt _ (RCat (RCat (RCat (RAlt (RAlt (RAlt (RCat _ (RCat (RCat _ (RStar _ r)) _)) _) _) _) _) _) _) => r | _ => REps end.
Definition char_set (l : bytes) : re := RCat (RSet false (map (fun c => (c, c)) l)) REps.
Definition class_re : re := RCat (RSet false [("["%char, "["%char)]) (RCat (RCat class_item (RStar true class_item)) (char_set ["]"%char])).
Definition braced_item : re := Eval vm_compute in match re_re with RAlt (RCat _ (RCat _ (RCat (RStar _ r) _))) _ => r | _ => REps end.
Definition prop_re : re := Eval vm_compute in
  match re_re with RAlt _ (RCat (RCat (RCat (RAlt (RAlt (RAlt _ r) _) _) _) _) _) => r | _ => REps end.
Definition letter_re : re := RCat (RSet false [("\"%char, "\"%char)]) (RCat (RSet false [("a"%char, "z"%char); ("A"%char, "Z"%char)]) REps).
Definition count_re : re := Eval vm_compute in
  match re_re with RAlt _ (RCat (RCat _ (RStar _ (RCat _ (RCat (ROpt _ (RCat (RCat (RAlt _ r) _) _)) _)))) _) => r | _ => REps end.
Definition times_re : re := ROpt true (RCat (RCat (RAlt (char_set ["+"; "*"; "?"]%char) count_re) (RCat (ROpt true (char_set ["?"%char])) REps)) REps).
Definition piece_re : re := RCat (RAlt (RAlt (RAlt class_re prop_re) letter_re) (char_set ["."; "^"; "$"]%char)) (RCat times_re REps).
Definition braced_re : re := RCat (RSet false [("/"%char, "/"%char)]) (RCat (RSet false [("{"%char, "{"%char)]) (RCat (RStar true braced_item) (char_set ["}"%char]))).
Lemma re_re_parts : re_re = RAlt braced_re (RCat (RCat piece_re (RStar true piece_re)) REps).
Proof. reflexivity. Qed.
Lemma braced_parts : braced_item =
  RAlt (RAlt (RAlt (RCat (RSet false [("\"%char, "\"%char)]) (RCat (RSet true [(nl, nl)]) REps)) (match braced_item with RAlt (RAlt (RAlt _ r) _) _ => r | _ => REps end))
       class_re) (RCat (RSet true (map (fun c => (c, c)) ["\"; "{"; "}"]%char)) REps).
Proof. reflexivity. Qed.

Lemma member_not : forall c l, member c l = false -> forall d, In d l -> c <> d.
Proof.
  intros c l M d I ->. unfold member in M. assert (existsb (Ascii.eqb d) l = true); [|congruence].
  apply existsb_exists. exists d. split; auto. apply Ascii.eqb_refl.
Qed.
Lemma takes_class : forall t y, class_text t -> takes class_re t y.
Proof.
  intros t y (b & -> & N & B). apply takes_char. apply takes_cat; [|apply takes_char, takes_eps].
  assert (I : forall c x, negb (member c ["["; "]"; "\"]%char) = true -> takes class_item [c] x).
  { intros c x M. apply negb_true_iff in M. apply takes_alt_r.
    - apply (blocked (fun c => negb (member c ["["; "]"; "\"]%char))); [vm_compute; reflexivity|]. apply headed_cons. rewrite M. auto.
    - apply takes_end, takes_set. apply (in_set_not c ["]"%char]). intros d [<-|[]]. apply (member_not _ _ M). simpl. auto. }
  destruct b as [|c b]; [congruence|]. cbn [forallb] in B. apply andb_true_iff in B as [B1 B2].
  change (c :: b) with ([c] ++ b). apply takes_cat; auto.
  assert (Q : b = concat (map (fun c => [c]) b)) by (clear; induction b; simpl; [|rewrite <- IHb]; auto).
  rewrite Q. apply takes_star. clear Q N. induction b as [|d b IH].
  - constructor. apply (blocked (fun c => Ascii.eqb c "]")); [vm_compute; reflexivity|]. apply headed_cons. auto.
  - cbn [forallb] in B2. apply andb_true_iff in B2 as [B2 B3]. constructor; auto; discriminate.
Qed.
Lemma braced_units : forall b, braced b -> exists us, b = concat us /\ forall x, takes_many braced_item us ("}"%char :: x).
Proof.
  intros b B. induction B as [|c b C B IH|t b T B IH|c b C B IH].
  - exists []. split; auto. intros x. constructor. apply (blocked (fun c => Ascii.eqb c "}")); [vm_compute; reflexivity|]. apply headed_cons. auto.
  - destruct IH as (us & -> & M). exists (["\"%char; c] :: us). split; auto. intros x. constructor; auto; [discriminate|].
    rewrite braced_parts. apply takes_alt_l, takes_alt_l, takes_alt_l, takes_char, takes_end, takes_set.
    apply (in_set_not c [nl]). intros d [<-|[]]. auto.
  - destruct IH as (us & -> & M). exists (t :: us). split; auto. intros x. constructor; auto.
    + destruct T as (b & -> & _). discriminate.
    + rewrite braced_parts. apply takes_alt_l, takes_alt_r; [|apply takes_class; auto].
      apply (blocked (fun c => Ascii.eqb c "[")); [vm_compute; reflexivity|]. destruct T as (b & -> & _). apply headed_cons. auto.
  - destruct IH as (us & -> & M). exists ([c] :: us). split; auto. intros x. constructor; auto; [discriminate|].
    rewrite braced_parts. apply takes_alt_r.
    + apply (blocked (fun c => negb (member c ["\"; "{"; "}"; "["]%char))); [vm_compute; reflexivity|]. apply headed_cons. rewrite C. auto.
    + apply takes_end, takes_set. apply in_set_not. intros d I. apply (member_not _ _ C). simpl in *. tauto.
Qed.

Definition goes_on (c : ascii) : bool := wordly c || member c ["["; "\"; "."; "^"; "$"; "?"; "*"; "+"; "{"]%char.
Definition piece_start (c : ascii) : bool := member c ["["; "\"; "."; "^"; "$"]%char.
Lemma takes_piece : forall t q y, piece_text t -> (q = [] \/ exists c, q = [c] /\ In c ["?"; "*"; "+"]%char) ->
  headed (fun c => white c || piece_start c || negb (goes_on c)) y -> takes piece_re (t ++ q) y.
Proof.
  intros t q y T Q H. apply takes_cat.
  - destruct T as [T|[(c & -> & L & P)|(c & -> & C)]].
    + apply takes_alt_l, takes_alt_l, takes_alt_l, takes_class; auto.
    + apply takes_alt_l, takes_alt_r.
      * apply dead_alt. { apply (blocked (fun c => Ascii.eqb c "\")); [vm_compute; reflexivity|apply headed_cons; auto]. }
        intros st k R. unfold prop_re. cbn [mt]. rewrite R. cbn [app mrest]. destruct (in_set false _ "\"%char); auto.
        replace (in_set false [("p"%char, "p"%char); ("P"%char, "P"%char)] c) with false; auto. symmetry.
        revert c P L R. assert (forall c, negb (member c ["p"; "P"; "_"]%char) = true -> in_set false [("p"%char, "p"%char); ("P"%char, "P"%char)] c = false).
        { apply apart_chars. vm_compute. reflexivity. } intros c P _ _. apply H0. rewrite P. auto.
      * apply takes_char, takes_end, takes_set. revert c P L.
        assert (forall c, (negb (member c ["p"; "P"; "_"]%char) && letter c)%bool = true -> in_set false [("a"%char, "z"%char); ("A"%char, "Z"%char)] c = true).
        { apply include_chars. vm_compute. reflexivity. } intros c P L. apply H0. rewrite P, L. auto.
    + apply takes_alt_r.
      * apply (blocked (fun c => member c ["."; "^"; "$"]%char)); [vm_compute; reflexivity|]. apply headed_cons. destruct C as [<-|[<-|[<-|[]]]]; auto.
      * apply takes_end, takes_set. destruct C as [<-|[<-|[<-|[]]]]; auto.
  - apply takes_end. destruct Q as [->|(c & -> & C)].
    + apply takes_opt_none. apply (blocked (fun c => white c || piece_start c || negb (goes_on c))); [vm_compute; reflexivity|auto].
    + apply takes_opt. apply takes_end. change [c] with ([c] ++ []). apply takes_cat.
      * apply takes_alt_l, takes_end, takes_set. destruct C as [<-|[<-|[<-|[]]]]; auto.
      * apply takes_end, takes_opt_none. apply (blocked (fun c => white c || piece_start c || negb (goes_on c))); [vm_compute; reflexivity|auto].
Qed.
Lemma piece_head : forall t x, piece_text t -> headed piece_start (t ++ x).
Proof.
  intros t x [(b & -> & _)|[(c & -> & _)|(c & -> & C)]]; apply headed_cons; auto. destruct C as [<-|[<-|[<-|[]]]]; auto.
Qed.
Lemma unbraced_head : forall t x, unbraced t -> headed piece_start (t ++ x).
Proof. intros t x U. destruct U; rewrite <- !app_assoc; apply piece_head; auto. Qed.
Lemma unbraced_units : forall t, unbraced t -> exists u us, t = u ++ concat us /\ u <> [] /\
  forall x, headed (fun c => white c || negb (goes_on c)) x -> takes piece_re u (concat us ++ x) /\ takes_many piece_re us x.
Proof.
  assert (PN : forall t, piece_text t -> t <> []) by (intros t [(b & -> & _)|[(c & -> & _)|(c & -> & _)]]; discriminate).
  intros t U. induction U as [t q T Q|t q b T Q U IH].
  - exists (t ++ q), []. split; [simpl; rewrite app_nil_r; auto|]. split; [destruct t; [destruct (PN [] T); auto|discriminate]|]. intros x X. split.
    + apply takes_piece; auto. eapply headed_weak; [|exact X]. intros c C. cbn in *. apply orb_true_iff in C as [->| ->]; auto. rewrite orb_true_r. auto.
    + constructor. apply (blocked (fun c => white c || negb (goes_on c))); [vm_compute; reflexivity|auto].
  - destruct IH as (u & us & -> & N & M). exists (t ++ q), (u :: us). split; auto. split; [destruct t; [destruct (PN [] T); auto|discriminate]|]. intros x X. destruct (M x X) as [T1 T2].
    assert (UH : headed piece_start (concat (u :: us) ++ x)) by (apply (unbraced_head (u ++ concat us)); auto).
    split.
    + apply takes_piece; auto. eapply headed_weak; [|exact UH]. intros c C. cbn in *. rewrite C, orb_true_r. auto.
    + constructor; auto.
Qed.
Lemma takes_regexp : forall t y, regexp_token t -> headed (fun c => white c || negb (glued (Regexp t) c)) y -> takes re_re t y.
Proof.
  intros t y [(b & -> & B)|U] H; rewrite re_re_parts.
  - destruct (braced_units b B) as (us & -> & M). apply takes_alt_l. apply takes_char, takes_char. apply takes_cat; [|apply takes_char, takes_eps].
    apply takes_star. apply M.
  - apply takes_alt_r.
    { apply (blocked piece_start); [vm_compute; reflexivity|]. apply unbraced_head; auto. }
    assert (PS : Ascii.eqb (hd " "%char t) "/" = false).
    { pose proof (unbraced_head t [] U) as P. rewrite app_nil_r in P. destruct t as [|c t]; auto. specialize (P c t eq_refl). cbn [hd].
      destruct (Ascii.eqb_spec c "/"); auto. subst. discriminate. }
    cbn [glued] in H. rewrite PS in H. destruct (unbraced_units t U) as (u & us & -> & _ & M). destruct (M y H) as [T1 T2].
    apply takes_end. apply takes_cat; auto. apply takes_star. auto.
Qed.
Lemma takes_note : forall t y, ~ In nl t -> (y = [] \/ exists z, y = nl :: z) -> takes note_re (bs "//" ++ t) y.
Proof.
  intros t y N Y. apply takes_alt_l. apply takes_char, takes_char. change (takes (RCat (RStar true (RSet true [(nl, nl)])) (RCat (RAssert AEndLine) REps)) t y).
  rewrite <- (app_nil_r t). apply takes_cat; [|apply takes_end, takes_line_end; auto]. apply takes_run.
  - apply forallb_forall. intros c I. apply (in_set_not c [nl]). intros d [<-|[]] ->. auto.
  - intros c z Q. cbn [app] in Q. destruct Y as [->|[z' ->]]; [discriminate|]. inversion Q; subst. reflexivity.
Qed.
Lemma note_parts : note_re = RAlt (RCat (RSet false [("/"%char, "/"%char)]) (RCat (RSet false [("/"%char, "/"%char)]) (match note_re with RAlt (RCat _ (RCat _ r)) _ => r | _ => REps end)))
  (RCat (RCat (RSet false [("/"%char, "/"%char)]) (RCat (RSet false [("*"%char, "*"%char)]) (RCat
    (RAlt (RCat (RSet true [("*"%char, "*"%char)]) REps)
       (RCat (RCat (RSet false [("*"%char, "*"%char)]) (RStar true (RSet false [("*"%char, "*"%char)]))) (RCat (RSet true [("*"%char, "*"%char); ("/"%char, "/"%char)]) REps)))
    (RCat (RSet false [("*"%char, "*"%char)]) (RCat (RSet false [("/"%char, "/"%char)]) REps))))) REps).
Proof. reflexivity. Qed.
Lemma line_dead : forall r x, dead (RCat (RSet false [("/"%char, "/"%char)]) (RCat (RSet false [("/"%char, "/"%char)]) r)) (bs "/*" ++ x).
Proof. intros r x st k Q. cbn [mt]. rewrite Q. cbn [bs list_ascii_of_string app mrest]. rewrite (in_char "/" "/"), (in_char "/" "*"). reflexivity. Qed.
Lemma takes_block : forall b y, block_body b -> takes note_re (block b) y.
Proof.
  intros b y B. rewrite note_parts. unfold block. apply takes_alt_r; [rewrite <- app_assoc; apply line_dead|]. apply takes_end. apply takes_char, takes_char.
  apply takes_cat; [|apply takes_char, takes_char, takes_eps]. destruct B as [(c & -> & N)|(n & c & -> & N & M)].
  - apply takes_alt_l. apply takes_end, takes_set. apply (in_set_not c ["*"%char]). intros d [<-|[]]; auto.
  - apply takes_alt_r.
    + cbn [repeat app]. apply dead_cat, dead_set. intros d z Q. inversion Q; subst. reflexivity.
    + apply takes_cat; [|apply takes_end, takes_set; apply (in_set_not c ["*"; "/"]%char); intros d [<-|[<-|[]]]; auto].
      cbn [repeat]. apply takes_char. apply takes_run.
      * apply forallb_forall. intros d I. apply repeat_spec in I. subst. reflexivity.
      * intros d z Q. inversion Q; subst. rewrite (in_char "*" d). apply Ascii.eqb_neq. auto.
Qed.
(** No other comment between slash-star and star-slash is a token. *)
Lemma star_dead : forall neg rs k n st, (forall w x st', mrest st = w ++ x -> forallb (in_set neg rs) w = true -> mrest st' = x -> k st' = None) ->
  star_loop (mt (RSet neg rs)) true k n st = None.
Proof.
  intros neg rs k. induction n as [|n IH]; intros st K.
  - cbn [star_loop]. apply (K [] (mrest st)); auto.
  - cbn [star_loop mt]. assert (K0 : k st = None) by (apply (K [] (mrest st)); auto).
    destruct (mrest st) as [|c x] eqn:R; cbn [orelse]; auto. destruct (in_set neg rs c) eqn:I; cbn [orelse]; auto.
    cbn [mrest length]. rewrite (proj2 (Nat.ltb_lt _ _)) by lia. rewrite IH; cbn [orelse]; auto.
    intros w y st' Q F Q'. cbn [mrest] in Q. subst x. apply (K (c :: w) y); auto. cbn [forallb]. rewrite I. auto.
Qed.
Lemma ending_dead : forall x, (forall y, x <> bs "*/" ++ y) ->
  dead (RCat (RSet false [("*"%char, "*"%char)]) (RCat (RSet false [("/"%char, "/"%char)]) REps)) x.
Proof.
  intros x N st k Q. cbn [mt]. rewrite Q. destruct x as [|c x]; auto. rewrite (in_char "*" c). destruct (Ascii.eqb_spec "*" c); auto.
  cbn [mrest]. destruct x as [|d x]; auto. rewrite (in_char "/" d). destruct (Ascii.eqb_spec "/" d); auto. subst. exfalso. apply (N x). reflexivity.
Qed.
Lemma body_dead : forall e, (forall x, (forall y, x <> bs "*/" ++ y) -> dead e x) -> forall x, (forall b y, x = b ++ bs "*/" ++ y -> ~ block_body b) ->
  dead (RCat (RAlt (RCat (RSet true [("*"%char, "*"%char)]) REps)
       (RCat (RCat (RSet false [("*"%char, "*"%char)]) (RStar true (RSet false [("*"%char, "*"%char)]))) (RCat (RSet true [("*"%char, "*"%char); ("/"%char, "/"%char)]) REps)))
    e) x.
Proof.
  intros e ED x H st k Q. cbn [mt]. rewrite Q.
  destruct x as [|c x]; auto. rewrite (not_in_set c "*" []), (in_char "*" c). destruct (Ascii.eqb_spec "*" c) as [<-|N]; cbn [negb andb].
  - cbn [orelse mt]. apply star_dead. intros w y st' Q' F R'. cbn [mrest] in Q'. rewrite R'. destruct y as [|d y]; auto.
    rewrite (not_in_set d "*" [("/"%char, "/"%char)]), (not_in_set d "/" []).
    destruct (Ascii.eqb_spec "*" d) as [|ND]; auto. destruct (Ascii.eqb_spec "/" d) as [|ND']; auto. cbn [negb andb].
    change (in_set true [] d) with true. cbn match. apply (ED y); auto. intros z ->.
    apply (H (repeat "*"%char (Datatypes.S (length w)) ++ [d]) z).
    + cbn [repeat app]. rewrite Q', <- app_assoc. f_equal. f_equal. clear -F. induction w as [|u w IH]; auto. cbn [forallb] in F. apply andb_true_iff in F as [F1 F2].
      rewrite (in_char "*" u) in F1. apply Ascii.eqb_eq in F1. subst. cbn [length repeat]. rewrite <- IH; auto.
    + right. exists (length w), d. auto.
  - change (in_set true [] c) with true. cbn match. rewrite (ED x); auto. intros z ->. apply (H [c] z); auto. left. eauto.
Qed.
Lemma block_dead : forall x, (forall b y, x = b ++ bs "*/" ++ y -> ~ block_body b) -> dead note_re (bs "/*" ++ x).
Proof.
  intros x H. rewrite note_parts. apply dead_alt; [apply line_dead|]. apply dead_cat.
  pose proof (body_dead _ ending_dead x H) as BD. revert BD. generalize (RCat (RSet false [("*"%char, "*"%char)]) (RCat (RSet false [("/"%char, "/"%char)]) REps)). intros e BD.
  match goal with |- dead (RCat _ (RCat _ ?r)) _ => revert BD; generalize r; intros body BD end.
  intros st k Q. cbn [mt]. rewrite Q. cbn [bs list_ascii_of_string app mrest]. rewrite (in_char "/" "/"). cbn [Ascii.eqb Bool.eqb mrest].
  rewrite (in_char "*" "*"). cbn [Ascii.eqb Bool.eqb mrest]. apply BD. reflexivity.
Qed.
Lemma takes_rep_op : forall c y, In c ["?"; "*"; "+"]%char -> takes rep_op_re [c] y.
Proof. intros c y I. apply takes_end, takes_set. destruct I as [<-|[<-|[<-|[]]]]; reflexivity. Qed.
Lemma takes_list_op : forall op a y, direction op a -> headed (fun c => white c || negb (Ascii.eqb c ">")) y -> takes list_op_re (bs op) y.
Proof.
  intros op a y D H. destruct D; cbn [bs list_ascii_of_string].
  - apply takes_alt_r; [apply (blocked (fun c => Ascii.eqb c ":")); [vm_compute; reflexivity|apply headed_cons; auto]|].
    apply takes_char, takes_end, takes_opt_none. apply (blocked (fun c => white c || negb (Ascii.eqb c ">"))); [vm_compute; reflexivity|auto].
  - apply takes_alt_r; [apply (blocked (fun c => Ascii.eqb c ":")); [vm_compute; reflexivity|apply headed_cons; auto]|].
    apply takes_char, takes_end, takes_opt, takes_char, takes_eps.
  - apply takes_alt_l, takes_char, takes_char, takes_eps.
Qed.
