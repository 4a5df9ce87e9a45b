(** Proofs about reading Go expressions. *)
From Verif Require Import Base Scanner Syntax GoSpec.
Local Open Scope nat_scope.

Section ExprInd.
  Variable P : expr -> Prop.
  Hypothesis HText : forall s, P (EText s).
  Hypothesis HNumber : forall n, P (ENumber n).
  Hypothesis HName : forall x, P (EName x).
  Hypothesis HMember : forall p x, P (EMember p x).
  Hypothesis HPlus : forall a b, P a -> P b -> P (EPlus a b).
  Hypothesis HCall : forall p f args, Forall P args -> P (ECall p f args).
  Definition on_key (o : option expr) : Prop := match o with Some k => P k | None => True end.
  Definition on_elem (e : option expr * expr) : Prop := on_key (fst e) /\ P (snd e).
  Hypothesis HComposite : forall p t es, Forall on_elem es -> P (EComposite p t es).
  Fixpoint expr_ind' (e : expr) : P e :=
    match e with
    | EText s => HText s
    | ENumber n => HNumber n
    | EName x => HName x
    | EMember p x => HMember p x
    | EPlus a b => HPlus a b (expr_ind' a) (expr_ind' b)
    | ECall p f args => HCall p f args ((fix go l : Forall P l := match l with [] => Forall_nil _ | x :: l' => Forall_cons x (expr_ind' x) (go l') end) args)
    | EComposite p t es =>
        HComposite p t es ((fix go l : Forall on_elem l :=
          match l with
          | [] => Forall_nil _
          | (o, v) :: l' => Forall_cons (o, v) (conj (match o return on_key o with Some k => expr_ind' k | None => I end) (expr_ind' v)) (go l')
          end) es)
    end.
End ExprInd.

(** ** How expressions are spelled *)
Fixpoint commas (l : list (list token)) : list token :=
  match l with [] => [] | [x] => x | x :: l' => x ++ Sign "," :: commas l' end.
Definition dotted (p x : bytes) : list token := [Word p; Sign "."; Word x].
Fixpoint spell (e : expr) : list token :=
  match e with
  | EText s => [Text s]
  | ENumber n => [Number n]
  | EName x => [Word x]
  | EMember p x => dotted p x
  | EPlus a b => spell a ++ Sign "+" :: spell b
  | ECall p f args => dotted p f ++ Sign "(" :: commas (map spell args) ++ [Sign ")"]
  | EComposite p t es =>
      dotted p t ++ Sign "{" :: commas (map (fun e : option expr * expr => match fst e with Some k => spell k ++ Sign ":" :: spell (snd e) | None => spell (snd e) end) es) ++ [Sign "}"]
  end.
Definition spell_elem (e : option expr * expr) : list token := match fst e with Some k => spell k ++ Sign ":" :: spell (snd e) | None => spell (snd e) end.

Definition is_plus (e : expr) : bool := match e with EPlus _ _ => true | _ => false end.
(** Sums lean to the left. *)
Fixpoint shaped (e : expr) : bool :=
  match e with
  | EPlus a b => (shaped a && shaped b && negb (is_plus b))%bool
  | ECall _ _ args => forallb shaped args
  | EComposite _ _ es => forallb (fun e : option expr * expr => (match fst e with Some k => shaped k | None => true end && shaped (snd e))%bool) es
  | _ => true
  end.
Definition shaped_elem (e : option expr * expr) : bool := (match fst e with Some k => shaped k | None => true end && shaped (snd e))%bool.

Fixpoint need (e : expr) : nat :=
  match e with
  | EPlus a b => need a + need b
  | ECall _ _ args => 4 + list_sum (map (fun e => 2 + need e) args)
  | EComposite _ _ es => 4 + list_sum (map (fun e : option expr * expr => 2 + (match fst e with Some k => need k | None => 0 end + need (snd e))) es)
  | _ => 2
  end.
Definition need_elem (e : option expr * expr) : nat := 2 + (match fst e with Some k => need k | None => 0 end + need (snd e)).

(** What may follow an operand, and an expression. *)
Definition calm (ts : list token) : Prop := match ts with Sign c :: _ => c <> "(" /\ c <> "{" /\ c <> "." | _ => True end%char.
Definition ended (ts : list token) : Prop := calm ts /\ match ts with Sign c :: _ => c <> "+" | _ => True end%char.

Lemma spell_starts : forall e, exists t ts, spell e = t :: ts /\ (forall c, t <> Sign c).
Proof.
  induction e using expr_ind'; simpl; try (eexists; eexists; split; [reflexivity|]; intros; discriminate).
  destruct IHe1 as (t & ts & -> & N). exists t, (ts ++ Sign "+" :: spell e2). auto.
Qed.
Lemma elem_starts : forall e, exists t ts, spell_elem e = t :: ts /\ (forall c, t <> Sign c).
Proof.
  intros [[k|] e]; unfold spell_elem; simpl.
  - destruct (spell_starts k) as (t & ts & -> & N). exists t, (ts ++ Sign ":" :: spell e). auto.
  - apply spell_starts.
Qed.
Lemma need_pos : forall e, 2 <= need e.
Proof. induction e using expr_ind'; simpl; lia. Qed.

(** Steps of the reader. *)
Lemma read_expr_eq : forall f ts, read_expr (S f) ts = match read_operand f ts with Some (a, ts') => read_sum f a ts' | None => None end.
Proof. reflexivity. Qed.
Lemma read_sum_end : forall f a ts, match ts with Sign c :: _ => c <> "+"%char | _ => True end -> read_sum (S f) a ts = Some (a, ts).
Proof.
  intros f a [|[x|n|s|c] ts] H; try reflexivity. cbn [read_sum].
  destruct c as [[] [] [] [] [] [] [] []]; try reflexivity. exfalso. apply H. reflexivity.
Qed.
Lemma read_sum_plus : forall f a ts, read_sum (S f) a (Sign "+" :: ts) = match read_operand f ts with Some (b, ts'') => read_sum f (EPlus a b) ts'' | None => None end.
Proof. reflexivity. Qed.

Definition reads_operand (e : expr) : Prop := forall f rest, calm rest -> need e <= S f -> read_operand f (spell e ++ rest) = Some (e, rest).
Definition reads_expr (e : expr) : Prop := forall f rest, ended rest -> need e <= f -> read_expr f (spell e ++ rest) = Some (e, rest).

(** Sums: after reading [e], the reader is in the loop. *)
Fixpoint pluses (e : expr) : nat := match e with EPlus a _ => S (pluses a) | _ => 0 end.
Fixpoint operands (e : expr) : list expr := match e with EPlus a b => operands a ++ [b] | _ => [e] end.
Lemma need_pluses : forall e, 2 * S (pluses e) <= need e.
Proof. induction e using expr_ind'; simpl; try lia. Qed.
Lemma read_sums : forall e, shaped e = true -> Forall reads_operand (operands e) ->
  forall f rest, calm rest -> need e <= f -> read_expr f (spell e ++ rest) = read_sum (f - S (pluses e)) e rest.
Proof.
  induction e as [s|n|x|p x|a b IHa IHb|p g args|p t es] using expr_ind'; intros SH F f rest C N;
    try (destruct f as [|f]; [simpl in N; lia|]; rewrite read_expr_eq; inversion F as [|? ? R0 _]; subst; rewrite (R0 f rest C) by (simpl in *; lia); cbn [pluses]; f_equal; lia).
  cbn [spell pluses] in *. cbn [shaped] in SH. apply andb_prop in SH as [SH SB]. apply andb_prop in SH as [SHa SHb]. cbn [operands need] in *.
  apply Forall_app in F as [Fa Fb]. inversion Fb as [|? ? Rb _]; subst. pose proof (need_pos b). pose proof (need_pluses a).
  rewrite <- app_assoc. cbn [app]. rewrite IHa; auto; [|cbn; repeat split; discriminate|lia].
  destruct (f - S (pluses a)) as [|k] eqn:K; [lia|]. rewrite read_sum_plus, Rb; auto; [|lia]. f_equal. lia.
Qed.
Lemma sums_read : forall e, shaped e = true -> Forall reads_operand (operands e) -> reads_expr e.
Proof.
  intros e SH F f rest [C N] L. rewrite read_sums; auto. pose proof (need_pluses e). destruct (f - S (pluses e)) eqn:K; [lia|]. apply read_sum_end. auto.
Qed.

(** Elements and lists. *)
Definition reads_elem (e : option expr * expr) : Prop := match fst e with Some k => reads_expr k | None => True end /\ reads_expr (snd e).
Definition stops (ts : list token) : Prop := match ts with Sign c :: _ => c = ","%char \/ c = ")"%char \/ c = "}"%char | _ => False end.
Lemma stops_ended : forall ts, stops ts -> ended ts.
Proof. intros [|[x|n|s|c] ts] H; try contradiction. cbn in *. destruct H as [->|[->| ->]]; repeat split; discriminate. Qed.
Lemma read_element_spelled : forall e f rest, reads_elem e -> stops rest -> need_elem e <= 1 + f -> read_element f (spell_elem e ++ rest) = Some (e, rest).
Proof.
  intros [[k|] e] f rest [RK RE] ST N; unfold need_elem, spell_elem in *; cbn [fst snd] in *; destruct f as [|f]; try lia; cbn [read_element].
  - rewrite <- app_assoc. cbn [app]. pose proof (need_pos e). rewrite RK; [|repeat split; discriminate|lia].
    rewrite RE; [reflexivity|apply stops_ended; auto|lia].
  - rewrite RE; [|apply stops_ended; auto|lia]. destruct rest as [|[x|n|s|c] rest]; try contradiction. cbn in ST. destruct ST as [->|[->| ->]]; reflexivity.
Qed.
Lemma read_list_spelled : forall close es f rest, (close = ")" \/ close = "}")%char -> Forall reads_elem es ->
  1 + list_sum (map need_elem es) <= f -> read_list f close (commas (map spell_elem es) ++ Sign close :: rest) = Some (es, rest).
Proof.
  intros close es f rest CL F. revert f. induction F as [|e es R F IH]; intros f N.
  - destruct f as [|f]; [simpl in N; lia|]. cbn [map commas app read_list]. rewrite Ascii.eqb_refl. reflexivity.
  - assert (NC : Ascii.eqb close "," = false) by (destruct CL as [->| ->]; reflexivity).
    destruct f as [|f]; [simpl in N; lia|].
    assert (NE : need_elem e <= f /\ 1 + list_sum (map need_elem es) <= f) by (cbn [map list_sum fold_right] in N; unfold need_elem at 1 in N; unfold need_elem at 1; fold (list_sum (map need_elem es)) in N; lia).
    destruct NE as [N1 N2].
    assert (HD : forall more, read_list (S f) close (spell_elem e ++ more) =
        match read_element f (spell_elem e ++ more) with
        | Some (e0, Sign c :: ts') => if Ascii.eqb c "," then match read_list f close ts' with Some (es, ts'') => Some (e0 :: es, ts'') | None => None end
                                      else if Ascii.eqb c close then Some ([e0], ts') else None
        | _ => None end).
    { intros more. destruct (elem_starts e) as (t & ts & E & NS). rewrite E. cbn [app]. destruct t as [x|n|s|c]; try reflexivity. destruct (NS c eq_refl). }
    destruct es as [|e2 es].
    + cbn [map commas]. rewrite HD, read_element_spelled by (auto || (cbn; tauto) || lia). rewrite NC, Ascii.eqb_refl. reflexivity.
    + change (commas (map spell_elem (e :: e2 :: es))) with (spell_elem e ++ Sign "," :: commas (map spell_elem (e2 :: es))).
      rewrite <- app_assoc. cbn [app]. rewrite HD, read_element_spelled by (auto || (cbn; tauto) || lia). cbn [Ascii.eqb Bool.eqb]. rewrite IH; auto.
Qed.

Lemma operands_plain : forall e, shaped e = true -> Forall (fun o => shaped o = true /\ is_plus o = false) (operands e).
Proof.
  induction e using expr_ind'; intros SH; cbn [operands]; try (constructor; [split; auto|constructor]; fail).
  cbn [shaped] in SH. apply andb_prop in SH as [SH SB]. apply andb_prop in SH as [SHa SHb]. apply Forall_app. split; auto.
  constructor; [|constructor]. split; auto. now apply negb_true_iff.
Qed.
Lemma operand_word : forall p x rest, calm rest -> forall f, read_operand (S f) (dotted p x ++ rest) = Some (EMember p x, rest).
Proof.
  intros p x [|[y|n|s|c] rest] C f; try reflexivity. cbn in C. destruct C as (A & B & D). unfold dotted. cbn [app read_operand].
  destruct c as [[] [] [] [] [] [] [] []]; try reflexivity; exfalso; (apply A; reflexivity) || (apply B; reflexivity).
Qed.
Lemma name_operand : forall x rest, calm rest -> forall f, read_operand (S f) (Word x :: rest) = Some (EName x, rest).
Proof.
  intros x [|[y|n|s|c] rest] C f; try reflexivity. cbn in C. destruct C as (A & B & D). cbn [read_operand].
  destruct c as [[] [] [] [] [] [] [] []]; try reflexivity. exfalso. apply D. reflexivity.
Qed.
Definition sound_expr (e : expr) : Prop := shaped e = true -> Forall reads_operand (operands e).
Lemma all_sound : forall e, sound_expr e.
Proof.
  induction e as [s|n|x|p x|a b IHa IHb|p g args IH|p t es IH] using expr_ind'; intros SH.
  - constructor; [|constructor]. intros f rest C N. destruct f; [simpl in N; lia|]. reflexivity.
  - constructor; [|constructor]. intros f rest C N. destruct f; [simpl in N; lia|]. reflexivity.
  - constructor; [|constructor]. intros f rest C N. destruct f; [simpl in N; lia|]. cbn [spell app]. apply name_operand. auto.
  - constructor; [|constructor]. intros f rest C N. destruct f; [simpl in N; lia|]. cbn [spell app]. apply operand_word. auto.
  - cbn [shaped] in SH. apply andb_prop in SH as [SH SB]. apply andb_prop in SH as [SHa SHb]. cbn [operands]. apply Forall_app. split; [apply IHa; auto|].
    apply IHb in SHb. apply negb_true_iff in SB. destruct b; try discriminate SB; auto.
  - constructor; [|constructor]. intros f rest C N. cbn [need] in N. destruct f as [|f]; [lia|]. cbn [spell]. unfold dotted. cbn [app]. rewrite <- app_assoc. cbn [app].
    cbn [read_operand].
    assert (E : commas (map spell args) = commas (map spell_elem (map (fun a => (None, a)) args))) by (rewrite map_map; reflexivity).
    rewrite E, read_list_spelled; auto.
    + assert (B : forallb (fun e : option expr * expr => match fst e with None => true | Some _ => false end) (map (fun a => (None, a)) args) = true) by (clear; induction args; auto).
      rewrite B, map_map. cbn [snd]. rewrite map_id. reflexivity.
    + cbn [shaped] in SH. rewrite forallb_forall in SH. rewrite Forall_forall in *. intros e I. apply in_map_iff in I as (a & <- & I). split; [exact Logic.I|].
      apply sums_read; [apply SH; auto|]. apply IH; auto.
    + rewrite map_map. replace (map (fun x => need_elem (None, x)) args) with (map (fun e => 2 + need e) args) by reflexivity. lia.
  - constructor; [|constructor]. intros f rest C N. cbn [need] in N. destruct f as [|f]; [lia|]. cbn [spell]. unfold dotted. cbn [app]. rewrite <- app_assoc. cbn [app].
    cbn [read_operand]. fold spell_elem in *. rewrite (read_list_spelled "}" es); auto.
    + cbn [shaped] in SH. rewrite forallb_forall in SH. rewrite Forall_forall in *. intros e I. specialize (IH _ I). specialize (SH _ I). destruct e as [k e].
      unfold on_elem, on_key in IH. cbn [fst snd] in *. apply andb_prop in SH as [SK SE]. destruct IH as [IK IE]. split; cbn [fst snd].
      * destruct k; auto. apply sums_read; auto.
      * apply sums_read; auto.
    + assert (need_elem = fun e : option expr * expr => 2 + (match fst e with Some k => need k | None => 0 end + need (snd e))) as -> by reflexivity. lia.
Qed.
Theorem read_spelled : forall e rest f, shaped e = true -> ended rest -> need e <= f -> read_expr f (spell e ++ rest) = Some (e, rest).
Proof. intros e rest f SH EN N. apply sums_read; auto. apply all_sound. auto. Qed.

(** The reader gets enough fuel. *)
Lemma commas_need : forall es, Forall (fun e => need_elem e <= 2 + 4 * length (spell_elem e)) es ->
  list_sum (map need_elem es) <= 4 * length (commas (map spell_elem es)) + 2.
Proof.
  induction 1 as [|e es H F IH]; [simpl; lia|]. destruct es as [|e2 es].
  - cbn [map commas list_sum fold_right]. lia.
  - change (commas (map spell_elem (e :: e2 :: es))) with (spell_elem e ++ Sign "," :: commas (map spell_elem (e2 :: es))).
    change (list_sum (map need_elem (e :: e2 :: es))) with (need_elem e + list_sum (map need_elem (e2 :: es))).
    rewrite app_length. cbn [length]. lia.
Qed.
Lemma need_spell : forall e, need e <= 4 * length (spell e).
Proof.
  induction e as [s|n|x|p x|a b IHa IHb|p g args IH|p t es IH] using expr_ind'; try (simpl; lia).
  - cbn [need spell]. rewrite app_length. cbn [length]. lia.
  - cbn [need spell]. unfold dotted. cbn [app length]. rewrite app_length. cbn [length].
    pose proof (commas_need (map (fun a => (None, a)) args)) as C. rewrite !map_map in C.
    change (map (fun x => need_elem (None, x)) args) with (map (fun e => 2 + need e) args) in C.
    change (map (fun x => spell_elem (None, x)) args) with (map spell args) in C. enough (list_sum (map (fun e => 2 + need e) args) <= 4 * length (commas (map spell args)) + 2) by lia.
    apply C. rewrite Forall_forall in *. intros e I. apply in_map_iff in I as (a & <- & I). specialize (IH _ I). unfold need_elem, spell_elem. cbn [fst snd]. lia.
  - cbn [need spell]. fold spell_elem. unfold dotted. cbn [app length]. rewrite app_length. cbn [length].
    pose proof (commas_need es) as C. change (list_sum (map need_elem es)) with (list_sum (map (fun e : option expr * expr => 2 + (match fst e with Some k => need k | None => 0 end + need (snd e))) es)) in C.
    change (fun e : option expr * expr => match fst e with Some k => spell k ++ Sign ":" :: spell (snd e) | None => spell (snd e) end) with spell_elem.
    enough (H : list_sum (map (fun e : option expr * expr => 2 + (match fst e with Some k => need k | None => 0 end + need (snd e))) es) <= 4 * length (commas (map spell_elem es)) + 2) by lia.
    apply C. rewrite Forall_forall in *. intros [[k|] e] I; specialize (IH _ I); destruct IH as [IK IE]; unfold need_elem, spell_elem; cbn [fst snd on_key] in *.
    + rewrite app_length. cbn [length]. lia.
    + lia.
Qed.

(** ** Tokens *)
Definition word_char (c : ascii) : bool := (letter c || digit c)%bool.
Definition add (ts : list token) (o : option (list token)) : option (list token) := match o with Some l => Some (ts ++ l) | None => None end.
Lemma add_add : forall a b o, add a (add b o) = add (a ++ b) o.
Proof. intros a b [l|]; simpl; auto. now rewrite app_assoc. Qed.
Lemma add_nil : forall o, add [] o = o.
Proof. intros [l|]; auto. Qed.
Lemma in_word : forall w x r, forallb word_char w = true -> match r with [] => True | c :: _ => word_char c = false end ->
  tokens (InWord x) (w ++ r) = add [Word (rev x ++ w)] (tokens (Gap true) r).
Proof.
  induction w as [|c w IH]; intros x r W R; cbn [app].
  - rewrite app_nil_r. destruct r as [|c r]; [reflexivity|]. cbn [tokens one_byte]. unfold word_char in R. rewrite R.
    destruct (in_gap true c) as [[ts p]|]; cbn [after]; auto. destruct (tokens p r); reflexivity.
  - cbn [forallb] in W. apply andb_prop in W as [C W]. cbn [tokens one_byte]. unfold word_char in C. rewrite C. rewrite IH; auto. cbn [rev]. rewrite <- app_assoc.
    destruct (tokens (Gap true) r); reflexivity.
Qed.
Lemma word_tokens : forall c w p r, letter c = true -> forallb word_char w = true -> match r with [] => True | c :: _ => word_char c = false end ->
  tokens (Gap p) (c :: w ++ r) = add [Word (c :: w)] (tokens (Gap true) r).
Proof. intros c w p r L W R. cbn [tokens one_byte]. unfold in_gap. rewrite L. rewrite in_word; auto. destruct (tokens (Gap true) r); reflexivity. Qed.
Lemma in_raw : forall s x r, ~ In "`"%char s -> ~ In cr s -> tokens (InRaw x) (s ++ "`"%char :: r) = add [Text (rev x ++ s)] (tokens (Gap true) r).
Proof.
  induction s as [|c s IH]; intros x r B C; cbn [app].
  - rewrite app_nil_r. cbn [tokens one_byte]. reflexivity.
  - cbn [tokens one_byte]. destruct (Ascii.eqb_spec c "`") as [->|N1]; [destruct B; now left|]. destruct (Ascii.eqb_spec c cr) as [->|N2]; [destruct C; now left|].
    rewrite IH; [|intros I; apply B; now right|intros I; apply C; now right]. cbn [rev]. rewrite <- app_assoc. destruct (tokens (Gap true) r); reflexivity.
Qed.
Lemma in_quotes : forall s x r, ~ In """"%char s -> ~ In "\"%char s -> ~ In nl s ->
  tokens (InQuotes x) (s ++ """"%char :: r) = add [Text (rev x ++ s)] (tokens (Gap true) r).
Proof.
  induction s as [|c s IH]; intros x r B C D; cbn [app].
  - rewrite app_nil_r. cbn [tokens one_byte]. reflexivity.
  - cbn [tokens one_byte]. destruct (Ascii.eqb_spec c """") as [->|N1]; [destruct B; now left|]. destruct (Ascii.eqb_spec c "\") as [->|N2]; [destruct C; now left|].
    destruct (Ascii.eqb_spec c nl) as [->|N3]; [destruct D; now left|]. cbn [orb].
    rewrite IH; try (intros I; (apply B + apply C + apply D); now right). cbn [rev]. rewrite <- app_assoc. destruct (tokens (Gap true) r); reflexivity.
Qed.
Lemma raw_tokens : forall s p r, ~ In "`"%char s -> ~ In cr s -> tokens (Gap p) ("`"%char :: s ++ "`"%char :: r) = add [Text s] (tokens (Gap true) r).
Proof. intros s p r B C. pose proof (in_raw s [] r B C) as H. cbn [rev app] in H. rewrite <- H. change (tokens (Gap p) ("`"%char :: s ++ "`"%char :: r)) with (match tokens (InRaw []) (s ++ "`"%char :: r) with Some ts' => Some ([] ++ ts') | None => None end). destruct (tokens (InRaw []) (s ++ "`"%char :: r)); auto. Qed.
Lemma quote_tokens : forall s p r, ~ In """"%char s -> ~ In "\"%char s -> ~ In nl s -> tokens (Gap p) (""""%char :: s ++ """"%char :: r) = add [Text s] (tokens (Gap true) r).
Proof. intros s p r B C D. pose proof (in_quotes s [] r B C D) as H. cbn [rev app] in H. rewrite <- H. change (tokens (Gap p) (""""%char :: s ++ """"%char :: r)) with (match tokens (InQuotes []) (s ++ """"%char :: r) with Some ts' => Some ([] ++ ts') | None => None end). destruct (tokens (InQuotes []) (s ++ """"%char :: r)); auto. Qed.
Definition closes (c : ascii) : bool := (Ascii.eqb c ")" || Ascii.eqb c "}")%bool.
Lemma sign_tokens : forall c p r, sign c = true -> tokens (Gap p) (c :: r) = add [Sign c] (tokens (Gap (closes c)) r).
Proof.
  intros c p r S1. assert (C : In c ["{"; "}"; "("; ")"; ","; ":"; "."; "+"]%char).
  { unfold sign in S1. apply existsb_exists in S1 as (d & I & E). apply Ascii.eqb_eq in E. subst. auto. }
  cbn [In] in C. repeat (destruct C as [<-|C]; [reflexivity|]). contradiction.
Qed.
Lemma space_tokens : forall p r, tokens (Gap p) (" "%char :: r) = tokens (Gap p) r.
Proof. intros p r. change (tokens (Gap p) (" "%char :: r)) with (match tokens (Gap p) r with Some ts' => Some ([] ++ ts') | None => None end). destruct (tokens (Gap p) r); auto. Qed.
Lemma newline_tokens : forall r, tokens (Gap false) (nl :: r) = tokens (Gap false) r.
Proof. intros r. change (tokens (Gap false) (nl :: r)) with (match tokens (Gap false) r with Some ts' => Some ([] ++ ts') | None => None end). destruct (tokens (Gap false) r); auto. Qed.

(** ** Sources of expressions *)

(** Text that is followed by a separator or a closing bracket. *)
Definition stopper (r : bytes) : Prop := match r with [] => True | c :: _ => In c [","; ")"; "}"]%char end.
Lemma stopper_word : forall r, stopper r -> match r with [] => True | c :: _ => word_char c = false end.
Proof. intros [|c r] H; auto. cbn in H. destruct H as [<-|[<-|[<-|[]]]]; reflexivity. Qed.
Definition writes (s : bytes) (ts : list token) : Prop := forall p r, stopper r -> tokens (Gap p) (s ++ r) = add ts (tokens (Gap true) r).

Definition a_word (x : bytes) : bool := match x with c :: w => (letter c && forallb word_char w)%bool | [] => false end.
Lemma a_word_tokens : forall x p r, a_word x = true -> match r with [] => True | c :: _ => word_char c = false end ->
  tokens (Gap p) (x ++ r) = add [Word x] (tokens (Gap true) r).
Proof. intros [|c w] p r A R; [discriminate|]. cbn in A. apply andb_prop in A as [A B]. apply word_tokens; auto. Qed.
Lemma dotted_tokens : forall x p r, a_word x = true -> match r with [] => True | c :: _ => word_char c = false end ->
  tokens (Gap p) ((bs "parser." ++ x) ++ r) = add (dotted (bs "parser") x) (tokens (Gap true) r).
Proof.
  intros x p r A R. change (bs "parser.") with (bs "parser" ++ ["."%char]). rewrite <- !app_assoc. rewrite a_word_tokens; [|reflexivity|reflexivity].
  cbn [app]. rewrite sign_tokens by reflexivity. rewrite a_word_tokens by auto. rewrite !add_add. reflexivity.
Qed.
Lemma member_writes : forall x, a_word x = true -> writes (bs "parser." ++ x) (dotted (bs "parser") x).
Proof. intros x A p r ST. apply dotted_tokens; [exact A|apply stopper_word; exact ST]. Qed.
Lemma word_writes : forall x, a_word x = true -> writes x [Word x].
Proof. intros x A p r ST. apply a_word_tokens; [exact A|apply stopper_word; exact ST]. Qed.
Lemma field_writes : forall x s ts, a_word x = true -> writes s ts -> writes (x ++ bs ": " ++ s) (Word x :: Sign ":" :: ts).
Proof.
  intros x s ts A W p r ST. rewrite <- !app_assoc. rewrite a_word_tokens; [|auto|reflexivity]. change (bs ": " ++ s ++ r) with (":"%char :: " "%char :: s ++ r).
  rewrite sign_tokens by reflexivity. rewrite space_tokens, W by auto. rewrite !add_add. reflexivity.
Qed.
Lemma entry_writes : forall k s ts, ~ In """"%char k -> ~ In "\"%char k -> ~ In nl k -> writes s ts -> writes ((bs """" ++ k ++ bs """") ++ bs ":" ++ s) (Text k :: Sign ":" :: ts).
Proof.
  intros k s ts A B C W p r ST. rewrite <- !app_assoc. change (bs """" ++ k ++ bs """" ++ bs ":" ++ s ++ r) with (""""%char :: k ++ """"%char :: ":"%char :: s ++ r).
  rewrite quote_tokens by auto. rewrite sign_tokens by reflexivity. rewrite W by auto. rewrite !add_add. reflexivity.
Qed.

Fixpoint joined (l : list bytes) : bytes := match l with [] => [] | [x] => x | x :: l' => x ++ ","%char :: nl :: joined l' end.
Lemma list_tokens : forall l ls, Forall2 writes l ls -> forall c, In c [")"; "}"]%char -> forall p r,
  tokens (Gap p) (joined l ++ c :: r) = add (commas ls ++ [Sign c]) (tokens (Gap true) r).
Proof.
  intros l ls F c CL. assert (SC : sign c = true /\ closes c = true) by (destruct CL as [<-|[<-|[]]]; auto). destruct SC as [SC CC].
  assert (ST : forall r, stopper (c :: r)) by (intros r; destruct CL as [<-|[<-|[]]]; cbn; auto).
  induction F as [|s ts l ls W F IH]; intros p r.
  - cbn [joined app commas]. rewrite sign_tokens by auto. rewrite CC. reflexivity.
  - destruct F as [|s2 ts2 l ls W2 F].
    + cbn [joined commas]. rewrite W by auto. rewrite sign_tokens by auto. rewrite CC, add_add. reflexivity.
    + change (joined (s :: s2 :: l)) with (s ++ ","%char :: nl :: joined (s2 :: l)). change (commas (ts :: ts2 :: ls)) with (ts ++ Sign "," :: commas (ts2 :: ls)).
      rewrite <- app_assoc. cbn [app]. rewrite W by (cbn; auto). rewrite sign_tokens by reflexivity. change (closes ",") with false. rewrite newline_tokens, IH, !add_add. rewrite <- !app_assoc. reflexivity.
Qed.
Lemma brackets_write : forall x o c l ls, a_word x = true -> In (o, c) [("(", ")"); ("{", "}")]%char -> Forall2 writes l ls ->
  writes ((bs "parser." ++ x) ++ [o] ++ joined l ++ [c]) (dotted (bs "parser") x ++ Sign o :: commas ls ++ [Sign c]).
Proof.
  intros x o c l ls A OC F p r ST. assert (SO : sign o = true /\ closes o = false /\ word_char o = false /\ In c [")"; "}"]%char).
  { destruct OC as [E|[E|[]]]; inversion E; subst; cbn; repeat split; auto. }
  destruct SO as (SO & CO & WO & CC).
  replace (((bs "parser." ++ x) ++ [o] ++ joined l ++ [c]) ++ r) with ((bs "parser." ++ x) ++ o :: joined l ++ c :: r) by (rewrite <- !app_assoc; reflexivity).
  rewrite dotted_tokens by auto. rewrite sign_tokens by auto. rewrite CO, (list_tokens l ls) by auto. rewrite !add_add. reflexivity.
Qed.

(** Strings with back quotes are written as sums. *)
Definition plus (l : option expr) (e : expr) : expr := match l with Some l => EPlus l e | None => e end.
Fixpoint sum_of (l : option expr) (done s : bytes) : expr :=
  match s with
  | [] => plus l (EText done)
  | c :: s' => if Ascii.eqb c "`" then sum_of (Some (EPlus (plus l (EText done)) (EText ["`"%char]))) [] s' else sum_of l (done ++ [c]) s'
  end.
Definition text_expr (s : bytes) : expr := sum_of None [] s.
Lemma sum_of_value : forall s l done x, text_value (plus l (EText done)) = Some x -> text_value (sum_of l done s) = Some (x ++ s).
Proof.
  induction s as [|c s IH]; intros l done x V; cbn [sum_of]; [now rewrite app_nil_r|].
  destruct (Ascii.eqb_spec c "`") as [->|N].
  - rewrite (IH _ [] (x ++ ["`"%char])); [now rewrite <- app_assoc|]. cbn [plus text_value]. rewrite V. now rewrite app_nil_r.
  - rewrite (IH _ _ (x ++ [c])); [now rewrite <- app_assoc|]. destruct l as [l|]; cbn [plus text_value] in *; [|now inversion V]. destruct (text_value l); inversion V; subst. now rewrite app_assoc.
Qed.
Lemma text_expr_value : forall s, text_value (text_expr s) = Some s.
Proof. intros s. unfold text_expr. rewrite (sum_of_value s None [] []); reflexivity. Qed.
Lemma sum_of_shaped : forall s l done, match l with Some e => shaped e = true | None => True end -> shaped (sum_of l done s) = true.
Proof.
  induction s as [|c s IH]; intros l done V; cbn [sum_of].
  - destruct l; cbn; auto. now rewrite V.
  - destruct (Ascii.eqb c "`"); apply IH; auto. destruct l as [e|]; cbn; auto. rewrite V. auto.
Qed.
Fixpoint pieces (done s : bytes) : list token :=
  match s with
  | [] => [Text done]
  | c :: s' => if Ascii.eqb c "`" then Text done :: Sign "+" :: Text ["`"%char] :: Sign "+" :: pieces [] s' else pieces (done ++ [c]) s'
  end.
Lemma sum_of_spell : forall s l done, spell (sum_of l done s) = match l with Some e => spell e ++ [Sign "+"] | None => [] end ++ pieces done s.
Proof.
  induction s as [|c s IH]; intros l done; cbn [sum_of pieces].
  - destruct l; cbn [plus spell]; auto. rewrite <- app_assoc. reflexivity.
  - destruct (Ascii.eqb c "`"); rewrite IH; auto. cbn [plus spell]. destruct l; cbn [plus spell]; rewrite <- ?app_assoc; cbn [app]; rewrite <- ?app_assoc; reflexivity.
Qed.
