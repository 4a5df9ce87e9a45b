(** The code generator writes grammars that read back. *)
From Verif Require Import Base Scanner Syntax Engine Resolve Compile Parse PegSpec CompileProofs StackSpec StackProofs ReorderProofs ChainProofs StackCut
  Codegen GoSpec GoProofs CodegenSpec.
From Coq Require Import DecimalString FinFun.
From Coq Require DecimalNat.
Local Open Scope nat_scope.

(** ** Numbers *)
Lemma digits_value : forall d acc, fold_left (fun n c => 10 * n + (nat_of_ascii c - 48)) (bs (NilEmpty.string_of_uint d)) acc = Nat.of_uint_acc d acc.
Proof.
  induction d as [|d IH|d IH|d IH|d IH|d IH|d IH|d IH|d IH|d IH|d IH]; intros acc; [reflexivity|..];
    cbn [NilEmpty.string_of_uint]; unfold bs; cbn [list_ascii_of_string fold_left]; fold (bs (NilEmpty.string_of_uint d)); rewrite IH; cbn [Nat.of_uint_acc];
    rewrite Nat.tail_mul_spec; f_equal; match goal with |- context [nat_of_ascii ?c] => let v := eval vm_compute in (nat_of_ascii c) in change (nat_of_ascii c) with v end; lia.
Qed.
Lemma digits_all : forall d, forallb digit (bs (NilEmpty.string_of_uint d)) = true.
Proof. induction d; auto. Qed.
Lemma no_leading_zero : forall n d, Nat.to_uint n = Decimal.D0 d -> d = Decimal.Nil.
Proof.
  intros n d E. pose proof (DecimalNat.Unsigned.to_of (Nat.to_uint n)) as H. rewrite DecimalNat.Unsigned.of_to in H. rewrite E in H. cbn [Decimal.unorm Decimal.nzhead] in H.
  assert (Z : forall x y, Decimal.nzhead x <> Decimal.D0 y) by (induction x; intros y; cbn; try discriminate; auto).
  unfold Decimal.unorm in H. cbn [Decimal.nzhead] in H. specialize (Z d d). destruct (Decimal.nzhead d); congruence.
Qed.
Lemma dec_number : forall n, number (bs (dec n)) = Some n.
Proof.
  intros n. unfold dec. pose proof (digits_value (Nat.to_uint n) 0) as V. pose proof (no_leading_zero n) as Z. pose proof (DecimalNat.Unsigned.of_to n) as O. unfold Nat.of_uint in O. rewrite O in V.
  assert (NN : Nat.to_uint n <> Decimal.Nil) by (intros E; pose proof (DecimalNat.Unsigned.to_of (Nat.to_uint n)) as H; rewrite DecimalNat.Unsigned.of_to, E in H; discriminate).
  destruct (Nat.to_uint n) as [|d|d|d|d|d|d|d|d|d|d]; [congruence| |..].
  - rewrite (Z d eq_refl) in *. cbn in *. congruence.
  - destruct d; [cbn in V |- *; congruence|..]; rewrite <- V; reflexivity.
  - destruct d; [cbn in V |- *; congruence|..]; rewrite <- V; reflexivity.
  - destruct d; [cbn in V |- *; congruence|..]; rewrite <- V; reflexivity.
  - destruct d; [cbn in V |- *; congruence|..]; rewrite <- V; reflexivity.
  - destruct d; [cbn in V |- *; congruence|..]; rewrite <- V; reflexivity.
  - destruct d; [cbn in V |- *; congruence|..]; rewrite <- V; reflexivity.
  - destruct d; [cbn in V |- *; congruence|..]; rewrite <- V; reflexivity.
  - destruct d; [cbn in V |- *; congruence|..]; rewrite <- V; reflexivity.
  - destruct d; [cbn in V |- *; congruence|..]; rewrite <- V; reflexivity.
Qed.
Lemma digit_not : forall c, digit c = true -> letter c = false.
Proof. intros [[] [] [] [] [] [] [] []]; vm_compute; congruence. Qed.
Lemma in_number : forall w x r n, forallb digit w = true -> match r with [] => True | c :: _ => (word_char c || Ascii.eqb c ".")%bool = false end ->
  number (rev x ++ w) = Some n -> tokens (InNumber x) (w ++ r) = add [Number n] (tokens (Gap true) r).
Proof.
  induction w as [|c w IH]; intros x r n W R N; cbn [app].
  - rewrite app_nil_r in N. destruct r as [|c r]; [cbn [tokens]; rewrite N; reflexivity|]. cbn [tokens one_byte]. unfold word_char in R. apply Bool.orb_false_iff in R as [R D]. apply Bool.orb_false_iff in R as [L G].
    rewrite G, L, D. cbn [orb]. rewrite N. destruct (in_gap true c) as [[ts p]|]; cbn [after]; auto. destruct (tokens p r); reflexivity.
  - cbn [forallb] in W. apply andb_prop in W as [C W]. cbn [tokens one_byte]. rewrite C. rewrite (IH _ _ n); auto; [|cbn [rev]; rewrite <- app_assoc; exact N]. destruct (tokens (Gap true) r); reflexivity.
Qed.
Lemma number_writes : forall n, writes (bs (dec n)) [Number n].
Proof.
  intros n p r ST. pose proof (dec_number n) as N. pose proof (digits_all (Nat.to_uint n)) as D. change (NilEmpty.string_of_uint (Nat.to_uint n)) with (dec n) in D.
  destruct (bs (dec n)) as [|c w]; [discriminate|]. cbn [forallb] in D. apply andb_prop in D as [C W]. cbn [app tokens one_byte]. unfold in_gap. rewrite (digit_not _ C), C.
  rewrite (in_number w [c] r n); auto; [destruct (tokens (Gap true) r); reflexivity|]. destruct r as [|d r]; auto. cbn in ST. destruct ST as [<-|[<-|[<-|[]]]]; reflexivity.
Qed.

(** ** The expression that is written *)
Definition sorted {A} (l : list (string * A)) : list (string * A) :=
  flat_map (fun k => match lookup k l with Some v => [(k, v)] | None => [] end) (sort_strings (keys l)).
Lemma sorted_map : forall A B (f : A -> B) l, sorted (map (fun kv : string * A => (fst kv, f (snd kv))) l) = map (fun kv => (fst kv, f (snd kv))) (sorted l).
Proof.
  intros A B f l. unfold sorted. assert (K : keys (map (fun kv : string * A => (fst kv, f (snd kv))) l) = keys l) by (unfold keys; rewrite map_map; apply map_ext; auto).
  rewrite K. induction (sort_strings (keys l)) as [|k ks IH]; simpl; auto. rewrite map_app, <- IH. f_equal. rewrite (lookup_map _ _ (fun _ => f)). destruct (lookup k l); auto.
Qed.
Lemma sorted_In : forall A (l : list (string * A)) k v, In (k, v) (sorted l) -> lookup k l = Some v.
Proof.
  intros A l k v I. unfold sorted in I. apply in_flat_map in I as (k' & _ & I). destruct (lookup k' l) as [v'|] eqn:E; [|contradiction]. destruct I as [I|[]]. congruence.
Qed.

Definition pkg := bs "parser".
Definition call (f : string) (args : list expr) : expr := ECall pkg (bs f) args.
Definition lit (x : string) (es : list (option expr * expr)) : expr := EComposite pkg (bs x) es.
Definition fld (x : string) (e : expr) : option expr * expr := (Some (EName (bs x)), e).
Definition pos (e : expr) : option expr * expr := (None, e).
Definition rule_elem (kv : string * expr) : option expr * expr := (Some (EText (bs (fst kv))), snd kv).
Fixpoint ge (t : term) : expr :=
  match t with
  | TSeq ts => lit "Seq" (map pos (map ge ts))
  | TStack ts => lit "Stack" (map pos (map ge ts))
  | TOneof ts => lit "Oneof" (map pos (map ge ts))
  | TS s => call "S" [text_expr s]
  | TDelim t sep a cs ce =>
      lit "Delim" ([fld "Term" (ge t); fld "Sep" (ge sep)]
        ++ (if cs then [fld "CanStartWithSep" (EName (bs "true"))] else [])
        ++ (if ce then [fld "CanEndWithSep" (EName (bs "true"))] else [])
        ++ (match a with
            | LeftToRight => [fld "Assoc" (EMember pkg (bs "LeftToRight"))]
            | RightToLeft => [fld "Assoc" (EMember pkg (bs "RightToLeft"))]
            | NonAssociative => []
            end))
  | TQuant t mn mx =>
      if (Nat.eqb mn 0 && Nat.eqb mx 0)%bool then call "Any" [ge t]
      else if (Nat.eqb mn 1 && Nat.eqb mx 0)%bool then call "Some" [ge t]
      else if (Nat.eqb mn 0 && Nat.eqb mx 1)%bool then call "Opt" [ge t]
      else lit "Quant" [pos (ge t); fld "Min" (ENumber mn); fld "Max" (ENumber mx)]
  | TNamed n t => call "Eq" [EText (bs n); ge t]
  | TScoped t g => lit "ScopedGrammar" [fld "Term" (ge t); fld "Grammar" (lit "Grammar" (map rule_elem (sorted (map (fun kv : string * term => (fst kv, ge (snd kv))) g))))]
  | TREF i d => lit "REF" (fld "Ident" (EText (bs i)) :: match d with Some s => [fld "Default" (call "S" [text_expr s])] | None => [] end)
  | TRE s => call "RE" [text_expr s]
  | TRule r => if has_at r then EMember pkg (bs "At") else call "Rule" [EText (bs r)]
  | TCut t => lit "CutPoint" [pos (ge t)]
  | TExtRef s => call "ExtRef" [text_expr (bs s)]
  | TLookAhead t => lit "LookAhead" [pos (ge t)]
  end.
Definition grammar_expr (g : grammar) : expr := lit "Grammar" (map rule_elem (map (fun kv : string * term => (fst kv, ge (snd kv))) g)).

(** ** Terms of compiled grammars *)
Definition all_ {A} (P : A -> Prop) (l : list A) : Prop := fold_right (fun x Q => P x /\ Q) True l.
Lemma all_Forall : forall A (P : A -> Prop) l, all_ P l <-> Forall P l.
Proof. intros A P l. induction l as [|x l IH]; simpl; split; auto. - intros [H Q]. constructor; tauto. - intros H. inversion H; subst. tauto. Qed.
Fixpoint okt (t : term) : Prop :=
  match t with
  | TRule r => has_at r = true \/ raw_name r
  | TS s | TRE s => clean s
  | TExtRef s => clean (bs s)
  | TREF i d => raw_name i /\ match d with Some s => clean s | None => True end
  | TSeq ts | TOneof ts | TStack ts => fold_right (fun x Q => okt x /\ Q) True ts
  | TDelim t sep _ _ _ => okt t /\ okt sep
  | TLookAhead t | TCut t => okt t
  | TQuant t _ _ => okt t
  | TNamed n t => raw_name n /\ okt t
  | TScoped t g => okt t /\ NoDup (keys g) /\ fold_right (fun (kv : string * term) Q => (rule_name (fst kv) /\ okt (snd kv)) /\ Q) True g
  end.
Definition okg (g : grammar) : Prop := NoDup (keys g) /\ Forall (fun kv : string * term => rule_name (fst kv) /\ okt (snd kv)) g.

(** Whether all quantifiers are simple. *)
Definition simple_b (mn mx : nat) : bool := (Nat.eqb mn 0 && Nat.eqb mx 0 || Nat.eqb mn 1 && Nat.eqb mx 0 || Nat.eqb mn 0 && Nat.eqb mx 1)%bool.
Fixpoint quants_b (t : term) : bool :=
  match t with
  | TRule _ | TS _ | TRE _ | TREF _ _ | TExtRef _ => true
  | TSeq ts | TOneof ts | TStack ts => forallb quants_b ts
  | TDelim t sep _ _ _ => (quants_b t && quants_b sep)%bool
  | TLookAhead t | TNamed _ t | TCut t => quants_b t
  | TQuant t mn mx => (simple_b mn mx && quants_b t)%bool
  | TScoped t g => (quants_b t && forallb (fun kv : string * term => quants_b (snd kv)) g)%bool
  end.
Definition quants_grammar_b (g : grammar) : bool := forallb (fun kv : string * term => quants_b (snd kv)) g.

(** ** The nodes of a grammar *)
Lemma has_at_In : forall r, has_at r = true <-> In "@"%char (bs r).
Proof. intros r. unfold has_at. rewrite existsb_exists. split; [intros (c & I & E); apply Ascii.eqb_eq in E; now subst|]. intros I. exists "@"%char. split; auto. Qed.
Lemma rule_name_at : forall r, rule_name r -> has_at r = false.
Proof. intros r [_ H]. destruct (has_at r) eqn:E; auto. apply has_at_In in E. exfalso. apply (H "@"%char); cbn; auto 8. Qed.
Lemma entries_flat : forall ks rules, entries [] ks rules = map (fun kv => entry (fst kv) (snd kv)) (flat_map (fun k => match lookup k rules with Some v => [(k, v)] | None => [] end) ks).
Proof. induction ks as [|k ks IH]; intros rules; simpl; auto. destruct (lookup k rules); simpl; rewrite IH; auto. Qed.
Lemma grammar_node_flat : forall rules, (forall k, In k (keys rules) -> has_at k = false) ->
  grammar_node rules = GoNode (bs "parser.Grammar") (map (fun kv => entry (fst kv) (snd kv)) (sorted rules)) SquigglyScope.
Proof.
  intros rules H. unfold grammar_node. assert (F : filter has_at (keys rules) = []).
  { induction (keys rules) as [|k ks IH]; simpl; auto. rewrite (H k (or_introl eq_refl)). apply IH. intros x I. apply H. now right. }
  rewrite F. cbn [map]. rewrite entries_flat. reflexivity.
Qed.
Lemma join_joined : forall l, join (","%char :: [nl]) l = joined l.
Proof. induction l as [|x [|y l] IH]; auto. change (join (","%char :: [nl]) (x :: y :: l)) with (x ++ [","%char; nl] ++ join (","%char :: [nl]) (y :: l)). rewrite IH. reflexivity. Qed.

Lemma lit_writes : forall x ns es, a_word (bs x) = true -> Forall2 (fun n e => writes (gostring n) (spell_elem e)) ns es ->
  writes (gostring (GoNode (bs "parser." ++ bs x) ns SquigglyScope)) (spell (lit x es)).
Proof.
  intros x ns es A F. cbn [gostring]. rewrite join_joined. unfold lit. cbn [spell].
  change (fun e : option expr * expr => match fst e with Some k => spell k ++ Sign ":" :: spell (snd e) | None => spell (snd e) end) with spell_elem.
  apply (brackets_write (bs x) "{" "}"); auto; [cbn; auto|]. induction F; simpl; constructor; auto.
Qed.
Lemma call_writes : forall x ns es, a_word (bs x) = true -> Forall2 (fun n e => writes (gostring n) (spell e)) ns es ->
  writes (gostring (GoNode (bs "parser." ++ bs x) ns BracesScope)) (spell (call x es)).
Proof.
  intros x ns es A F. cbn [gostring]. rewrite join_joined. unfold call. cbn [spell].
  apply (brackets_write (bs x) "(" ")"); auto; [cbn; auto|]. induction F; simpl; constructor; auto.
Qed.
Lemma bs_app : forall a b, bs (a ++ b)%string = bs a ++ bs b.
Proof. induction a as [|c a IH]; intros b; simpl; auto. unfold bs in *. simpl. now rewrite IH. Qed.
Lemma prefix_writes : forall x n e, a_word (bs x) = true -> writes (gostring n) (spell e) -> writes (gostring (prefix_name (x ++ ": ") n)) (spell_elem (fld x e)).
Proof.
  intros x [name ch sc] e A W. cbn [prefix_name gostring]. rewrite bs_app. unfold spell_elem, fld. cbn [fst snd spell app].
  rewrite <- !app_assoc. apply (field_writes (bs x)); auto.
Qed.

Lemma raw_open : forall p r, tokens (Gap p) ("`"%char :: r) = tokens (InRaw []) r.
Proof. intros p r. change (tokens (Gap p) ("`"%char :: r)) with (match tokens (InRaw []) r with Some ts' => Some ([] ++ ts') | None => None end). destruct (tokens (InRaw []) r); auto. Qed.
Lemma raw_close : forall x r, tokens (InRaw x) ("`"%char :: r) = add [Text (rev x)] (tokens (Gap true) r).
Proof. intros x r. pose proof (in_raw [] x r (fun H => H) (fun H => H)) as H. cbn [app] in H. rewrite H, app_nil_r. reflexivity. Qed.
Lemma raw_byte : forall c x r, c <> "`"%char -> c <> cr -> tokens (InRaw x) (c :: r) = tokens (InRaw (c :: x)) r.
Proof.
  intros c x r A B. cbn [tokens one_byte]. destruct (Ascii.eqb_spec c "`"); [congruence|]. destruct (Ascii.eqb_spec c cr); [congruence|].
  destruct (tokens (InRaw (c :: x)) r); auto.
Qed.
Lemma safe_tokens : forall s x r, ~ In cr s -> tokens (InRaw x) (safe_string s ++ "`"%char :: r) = add (pieces (rev x) s) (tokens (Gap true) r).
Proof.
  induction s as [|c s IH]; intros x r N.
  - cbn [safe_string flat_map app pieces]. apply raw_close.
  - assert (N' : ~ In cr s) by (intros I; apply N; now right). cbn [safe_string flat_map pieces]. fold (safe_string s). rewrite <- app_assoc. unfold back_quote.
    destruct (Ascii.eqb_spec c "`") as [->|NB].
    + change (bs "`+""`""+`" ++ safe_string s ++ "`"%char :: r) with ("`"%char :: "+"%char :: """"%char :: ["`"%char] ++ """"%char :: "+"%char :: "`"%char :: safe_string s ++ "`"%char :: r).
      rewrite raw_close. rewrite sign_tokens by reflexivity. rewrite quote_tokens by (cbn; intros [H|[]]; discriminate). rewrite sign_tokens by reflexivity. rewrite raw_open, IH by auto.
      rewrite !add_add. reflexivity.
    + cbn [app]. rewrite raw_byte; [|auto|intros ->; apply N; now left]. rewrite IH by auto. cbn [rev]. reflexivity.
Qed.
(** A call with one string. *)
Lemma quoted_writes : forall x s e, a_word (bs x) = true -> (forall r, tokens (InRaw []) (s ++ "`"%char :: r) = add (spell e) (tokens (Gap true) r)) ->
  writes (quoted_call ("parser." ++ x) s) (spell (call x [e])).
Proof.
  intros x s e A H p r ST. unfold quoted_call. rewrite bs_app. rewrite <- !app_assoc. rewrite (app_assoc (bs "parser.")). cbn [app].
  change (bs "(`" ++ s ++ bs "`)" ++ r) with ("("%char :: "`"%char :: s ++ "`"%char :: ")"%char :: r). rewrite dotted_tokens; [|auto|reflexivity].
  rewrite sign_tokens by reflexivity. rewrite raw_open, H. rewrite sign_tokens by reflexivity. rewrite !add_add. reflexivity.
Qed.
Lemma text_writes : forall x s, a_word (bs x) = true -> ~ In cr s -> writes (quoted_call ("parser." ++ x) (safe_string s)) (spell (call x [text_expr s])).
Proof. intros x s A N. apply quoted_writes; auto. intros r. rewrite safe_tokens by auto. unfold text_expr. rewrite sum_of_spell. reflexivity. Qed.
Lemma name_writes : forall x s, a_word (bs x) = true -> raw_name s -> writes (quoted_call ("parser." ++ x) (bs s)) (spell (call x [EText (bs s)])).
Proof. intros x s A [[_ N] B]. apply quoted_writes; auto. intros r. rewrite in_raw by auto. reflexivity. Qed.
Lemma raw_writes : forall s, raw_name s -> writes (bs "`" ++ bs s ++ bs "`") (spell (EText (bs s))).
Proof. intros s [[_ N] B] p r ST. rewrite <- !app_assoc. change (bs "`" ++ bs s ++ bs "`" ++ r) with ("`"%char :: bs s ++ "`"%char :: r). rewrite raw_tokens by auto. reflexivity. Qed.
Lemma string_node_writes : forall s ts, writes s ts -> writes (gostring (string_node s)) ts.
Proof. intros s ts W. unfold string_node. cbn [gostring opening closing map join app]. rewrite !app_nil_r. auto. Qed.
Lemma entry_node_writes : forall k n e, rule_name k -> writes (gostring n) (spell e) -> writes (gostring (entry k n)) (spell_elem (rule_elem (k, e))).
Proof.
  intros k n e [_ H] W. unfold entry. cbn [gostring map join opening closing]. rewrite app_nil_r. unfold spell_elem, rule_elem. cbn [fst snd spell app].
  apply entry_writes; auto; apply H; cbn; auto 8.
Qed.

Lemma flat_grammar_writes : forall g : list (string * gonode), forall es : list (string * expr),
  Forall2 (fun kn ke => fst kn = fst ke /\ rule_name (fst ke) /\ writes (gostring (snd kn)) (spell (snd ke))) g es ->
  writes (gostring (GoNode (bs "parser.Grammar") (map (fun kv => entry (fst kv) (snd kv)) g) SquigglyScope)) (spell (lit "Grammar" (map rule_elem es))).
Proof.
  intros g es F. apply (lit_writes "Grammar"); [reflexivity|]. induction F as [|[k n] [k' e] g es (E & R & W) F IH]; simpl; constructor; auto.
  cbn [fst snd] in *. subst. apply entry_node_writes; auto.
Qed.
Lemma Forall2_maps : forall A B C (R : B -> C -> Prop) (f : A -> B) (g : A -> C) l, Forall (fun x => R (f x) (g x)) l -> Forall2 R (map f l) (map g l).
Proof. induction 1; simpl; constructor; auto. Qed.

Lemma term_writes : forall t, okt t -> writes (gostring (walk_term t)) (spell (ge t)).
Proof.
  assert (L : forall ts, Forall (fun t => okt t -> writes (gostring (walk_term t)) (spell (ge t))) ts -> fold_right (fun x Q => okt x /\ Q) True ts ->
    Forall2 (fun n e => writes (gostring n) (spell_elem e)) (map walk_term ts) (map pos (map ge ts))).
  { induction 1; simpl; intros Q; constructor; tauto. }
  induction t using term_ind'; cbn [okt walk_term ge]; intros O.
  - destruct (has_at r) eqn:E.
    + apply string_node_writes. apply (member_writes (bs "At")). reflexivity.
    + apply string_node_writes. destruct O as [O|O]; [discriminate|]. apply (name_writes "Rule"); auto.
  - apply string_node_writes, (text_writes "S"); [reflexivity|apply O].
  - apply string_node_writes, (text_writes "RE"); [reflexivity|apply O].
  - apply (lit_writes "REF"); [reflexivity|]. destruct O as [OI OD]. constructor.
    + apply string_node_writes. change (bs "Ident: `" ++ bs i ++ bs "`") with (bs "Ident" ++ bs ": " ++ bs "`" ++ bs i ++ bs "`").
      apply field_writes; [reflexivity|]. apply raw_writes. auto.
    + destruct d as [s|]; constructor; [|constructor]. apply (prefix_writes "Default"); [reflexivity|]. apply string_node_writes, (text_writes "S"); [reflexivity|apply OD].
  - apply string_node_writes, (text_writes "ExtRef"); [reflexivity|apply O].
  - apply (lit_writes "Seq"); [reflexivity|auto].
  - apply (lit_writes "Oneof"); [reflexivity|auto].
  - apply (lit_writes "Stack"); [reflexivity|auto].
  - destruct O as [O1 O2]. apply (lit_writes "Delim"); [reflexivity|]. cbn [app].
    assert (SN : forall s x e, a_word (bs x) = true -> writes s (spell e) -> writes (gostring (string_node (bs x ++ bs ": " ++ s))) (spell_elem (fld x e))).
    { intros s x e A W. apply string_node_writes. apply field_writes; auto. }
    constructor; [apply (prefix_writes "Term"); auto|]. constructor; [apply (prefix_writes "Sep"); auto|]. apply Forall2_app; [|apply Forall2_app].
    + destruct cs; constructor; [|constructor]. apply (SN (bs "true") "CanStartWithSep"%string); [reflexivity|apply word_writes; reflexivity].
    + destruct ce; constructor; [|constructor]. apply (SN (bs "true") "CanEndWithSep"%string); [reflexivity|apply word_writes; reflexivity].
    + destruct a; repeat (apply Forall2_cons || apply Forall2_nil).
      all: (apply (SN (bs "parser.LeftToRight") "Assoc"%string (EMember pkg (bs "LeftToRight"))); [reflexivity|apply (member_writes (bs "LeftToRight")); reflexivity])
        || (apply (SN (bs "parser.RightToLeft") "Assoc"%string (EMember pkg (bs "RightToLeft"))); [reflexivity|apply (member_writes (bs "RightToLeft")); reflexivity]).
  - apply (lit_writes "LookAhead"); [reflexivity|]. constructor; [apply IHt; auto|constructor].
  - specialize (IHt O). destruct (_ && _)%bool; [|destruct (_ && _)%bool; [|destruct (_ && _)%bool]].
    + apply (call_writes "Any"); [reflexivity|]. constructor; auto.
    + apply (call_writes "Some"); [reflexivity|]. constructor; auto.
    + apply (call_writes "Opt"); [reflexivity|]. constructor; auto.
    + apply (lit_writes "Quant"); [reflexivity|]. constructor; [auto|]. constructor; [|constructor; [|constructor]].
      * apply string_node_writes. apply (field_writes (bs "Min")); [reflexivity|]. apply number_writes.
      * apply string_node_writes. apply (field_writes (bs "Max")); [reflexivity|]. apply number_writes.
  - destruct O as [N O]. apply (call_writes "Eq"); [reflexivity|]. constructor; [|constructor; auto]. apply string_node_writes, raw_writes. auto.
  - destruct O as (O & N & G). apply (lit_writes "ScopedGrammar"); [reflexivity|]. constructor; [apply (prefix_writes "Term"); auto|]. constructor; [|constructor].
    apply (all_Forall _ (fun kv : string * term => rule_name (fst kv) /\ okt (snd kv)) g) in G.
    apply (prefix_writes "Grammar"); [reflexivity|]. rewrite grammar_node_flat.
    + apply flat_grammar_writes. rewrite !sorted_map. apply Forall2_maps. rewrite Forall_forall in *. intros [k v] I. cbn [fst snd].
      apply sorted_In, lookup_In in I. specialize (G _ I). specialize (H _ I). cbn [fst snd] in *. tauto.
    + intros k I. unfold keys in I. rewrite map_map in I. apply in_map_iff in I as (kv & <- & I). rewrite Forall_forall in G. apply rule_name_at. apply (G _ I).
  - apply (lit_writes "CutPoint"); [reflexivity|]. constructor; [apply IHt; auto|constructor].
Qed.

(** ** UTF-8 *)
Lemma utf8_app : forall a b, utf8 a -> utf8 b -> utf8 (a ++ b).
Proof. induction 1; intros U; cbn [app]; auto; [apply utf8_1|apply utf8_2|apply utf8_3|apply utf8_4]; auto. Qed.
Definition ascii_b (s : bytes) : bool := forallb (fun c => (Nat.ltb 0 (nat_of_ascii c) && Nat.ltb (nat_of_ascii c) 128)%bool) s.
Lemma ascii_utf8 : forall s, ascii_b s = true -> utf8 s.
Proof.
  induction s as [|c s IH]; intros H; [constructor|]. cbn [ascii_b forallb] in H. apply andb_prop in H as [H1 H2]. apply andb_prop in H1 as [H0 H1].
  apply Nat.ltb_lt in H0, H1. constructor; [lia|apply IH; exact H2].
Qed.
Lemma joined_utf8 : forall l, Forall utf8 l -> utf8 (joined l).
Proof.
  induction 1 as [|x l U F IH]; [constructor|]. destruct l as [|y l]; [exact U|].
  change (joined (x :: y :: l)) with (x ++ [","%char; nl] ++ joined (y :: l)). apply utf8_app; auto. apply utf8_app; auto. apply ascii_utf8. reflexivity.
Qed.
Lemma node_utf8 : forall name ch sc, utf8 name -> Forall (fun n => utf8 (gostring n)) ch -> utf8 (gostring (GoNode name ch sc)).
Proof.
  intros name ch sc N F. cbn [gostring]. rewrite join_joined. apply utf8_app; auto. apply utf8_app; [destruct sc; apply ascii_utf8; reflexivity|].
  apply utf8_app; [|destruct sc; apply ascii_utf8; reflexivity]. apply joined_utf8. induction F; simpl; constructor; auto.
Qed.
Lemma lit_utf8 : forall name ch sc, ascii_b name = true -> Forall (fun n => utf8 (gostring n)) ch -> utf8 (gostring (GoNode name ch sc)).
Proof. intros. apply node_utf8; auto. apply ascii_utf8. auto. Qed.
Lemma string_node_utf8 : forall s, utf8 s -> utf8 (gostring (string_node s)).
Proof. intros s U. apply node_utf8; auto. Qed.
Lemma prefix_utf8 : forall x n, ascii_b (bs x) = true -> utf8 (gostring n) -> utf8 (gostring (prefix_name x n)).
Proof. intros x [name ch sc] A U. cbn [prefix_name gostring] in *. rewrite <- app_assoc. apply utf8_app; auto. apply ascii_utf8. auto. Qed.
Lemma safe_utf8 : forall s, utf8 s -> utf8 (safe_string s).
Proof.
  assert (N : forall c, 128 <= nat_of_ascii c -> Ascii.eqb c back_quote = false).
  { intros c L. destruct (Ascii.eqb_spec c back_quote) as [->|]; auto. assert (nat_of_ascii back_quote = 96) by reflexivity. lia. }
  induction 1; unfold safe_string in *; cbn [flat_map]; unfold tail_byte in *; rewrite ?N by lia; cbn [app]; [constructor| |apply utf8_2|apply utf8_3|apply utf8_4]; unfold tail_byte; auto.
  destruct (Ascii.eqb a back_quote); cbn [app]; [|apply utf8_1; auto]. apply (utf8_app (bs "`+""`""+`")); auto. apply ascii_utf8. reflexivity.
Qed.
Lemma quoted_utf8 : forall f s, ascii_b (bs f) = true -> utf8 s -> utf8 (quoted_call f s).
Proof. intros f s A U. unfold quoted_call. repeat apply utf8_app; auto; apply ascii_utf8; auto. Qed.
Lemma entry_utf8 : forall k n, rule_name k -> utf8 (gostring n) -> utf8 (gostring (entry k n)).
Proof. intros k n [[U _] _] N. apply node_utf8; auto. repeat apply utf8_app; auto; apply ascii_utf8; reflexivity. Qed.
Lemma dec_utf8 : forall n, utf8 (bs (dec n)).
Proof.
  intros n. apply ascii_utf8. pose proof (digits_all (Nat.to_uint n)) as D. change (NilEmpty.string_of_uint (Nat.to_uint n)) with (dec n) in D.
  unfold ascii_b. rewrite forallb_forall in *. intros c I. specialize (D c I). revert D. destruct c as [[] [] [] [] [] [] [] []]; vm_compute; congruence.
Qed.
Lemma term_utf8 : forall t, okt t -> utf8 (gostring (walk_term t)).
Proof.
  assert (L : forall ts, Forall (fun t => okt t -> utf8 (gostring (walk_term t))) ts -> fold_right (fun x Q => okt x /\ Q) True ts ->
    Forall (fun n => utf8 (gostring n)) (map walk_term ts)).
  { induction 1; simpl; intros Q; constructor; tauto. }
  induction t using term_ind'; cbn [okt walk_term]; intros O; try (apply lit_utf8; [reflexivity|]); auto.
  - apply string_node_utf8. destruct (has_at r); [apply ascii_utf8; reflexivity|]. destruct O as [O|[[U _] _]]; [discriminate|]. apply quoted_utf8; auto.
  - apply string_node_utf8, quoted_utf8, safe_utf8, O. reflexivity.
  - apply string_node_utf8, quoted_utf8, safe_utf8, O. reflexivity.
  - destruct O as [[[U _] _] D]. constructor.
    + apply string_node_utf8. repeat apply utf8_app; auto; apply ascii_utf8; reflexivity.
    + destruct d as [s|]; constructor; [|constructor]. apply prefix_utf8; [reflexivity|]. apply string_node_utf8, quoted_utf8, safe_utf8, D. reflexivity.
  - apply string_node_utf8, quoted_utf8, safe_utf8, O. reflexivity.
  - destruct O as [O1 O2]. cbn [app]. constructor; [apply prefix_utf8; auto|]. constructor; [apply prefix_utf8; auto|].
    destruct cs, ce, a; cbn [app]; repeat (apply Forall_cons || apply Forall_nil); apply string_node_utf8, ascii_utf8; reflexivity.
  - destruct (_ && _)%bool; [|destruct (_ && _)%bool; [|destruct (_ && _)%bool]]; (apply lit_utf8; [reflexivity|]); auto.
    constructor; auto. constructor; [|constructor; [|constructor]]; apply string_node_utf8, utf8_app; [apply ascii_utf8; reflexivity|apply dec_utf8|apply ascii_utf8; reflexivity|apply dec_utf8].
  - destruct O as [[[U _] _] O]. constructor; [|auto]. apply string_node_utf8. repeat apply utf8_app; auto; apply ascii_utf8; reflexivity.
  - destruct O as (O & N & G). apply (all_Forall _ (fun kv : string * term => rule_name (fst kv) /\ okt (snd kv)) g) in G. constructor; [apply prefix_utf8; auto|]. constructor; [|constructor].
    apply prefix_utf8; [reflexivity|]. rewrite grammar_node_flat.
    + apply lit_utf8; [reflexivity|]. rewrite sorted_map, map_map. rewrite Forall_map. rewrite Forall_forall in *. intros [k v] I. cbn [fst snd].
      apply sorted_In, lookup_In in I. specialize (G _ I). specialize (H _ I). cbn [fst snd] in *. apply entry_utf8; tauto.
    + intros k I. unfold keys in I. rewrite map_map in I. apply in_map_iff in I as (kv & <- & I). rewrite Forall_forall in G. apply rule_name_at. apply (G _ I).
Qed.

(** ** Sorting *)
From Coq Require Import Permutation.
Lemma insert_perm : forall x l, Permutation (insert_string x l) (x :: l).
Proof. induction l as [|y l IH]; simpl; auto. destruct (String.compare x y); auto. eapply perm_trans; [apply perm_skip, IH|]. apply perm_swap. Qed.
Lemma sort_perm : forall l, Permutation (sort_strings l) l.
Proof. induction l as [|x l IH]; simpl; auto. unfold sort_strings in *. eapply perm_trans; [apply insert_perm|]. auto. Qed.
Lemma keys_sorted : forall A (l : list (string * A)), keys (sorted l) = sort_strings (keys l).
Proof.
  intros A l. unfold sorted, keys at 1. assert (H : forall ks, incl ks (keys l) -> map fst (flat_map (fun k => match lookup k l with Some v => [(k, v)] | None => [] end) ks) = ks).
  { induction ks as [|k ks IH]; intros I; simpl; auto. rewrite map_app. rewrite IH by (intros x J; apply I; now right).
    destruct (lookup k l) eqn:E; auto. apply lookup_None in E. destruct E. apply I. now left. }
  apply H. intros x I. eapply Permutation_in; [apply sort_perm|exact I].
Qed.
Lemma sorted_nodup : forall A (l : list (string * A)), NoDup (keys l) -> NoDup (keys (sorted l)).
Proof. intros A l N. rewrite keys_sorted. eapply Permutation_NoDup; [apply Permutation_sym, sort_perm|exact N]. Qed.
Lemma sorted_lookup : forall A (l : list (string * A)) k, NoDup (keys l) -> lookup k (sorted l) = lookup k l.
Proof.
  intros A l k N. destruct (lookup k (sorted l)) as [v|] eqn:E.
  - apply lookup_In, sorted_In in E. auto.
  - symmetry. apply lookup_None in E. apply lookup_None. intros I. apply E. rewrite keys_sorted. eapply Permutation_in; [apply Permutation_sym, sort_perm|exact I].
Qed.

(** ** Values *)
Fixpoint norm (t : term) : term :=
  match t with
  | TRule r => TRule (if has_at r then "@" else r)
  | TS _ | TRE _ | TREF _ _ | TExtRef _ => t
  | TSeq ts => TSeq (map norm ts)
  | TOneof ts => TOneof (map norm ts)
  | TStack ts => TStack (map norm ts)
  | TDelim t sep a cs ce => TDelim (norm t) (norm sep) a cs ce
  | TLookAhead t => TLookAhead (norm t)
  | TQuant t mn mx => TQuant (norm t) mn mx
  | TNamed n t => TNamed n (norm t)
  | TCut t => TCut (norm t)
  | TScoped t g => TScoped (norm t) (sorted (map (fun kv : string * term => (fst kv, norm (snd kv))) g))
  end.
Definition norm_rules (g : grammar) : grammar := map (fun kv : string * term => (fst kv, norm (snd kv))) g.

Lemma commas_len : forall l x, In x l -> length x <= length (commas l).
Proof.
  induction l as [|y l IH]; intros x I; [contradiction|]. destruct l as [|z l].
  - destruct I as [->|[]]. auto.
  - change (commas (y :: z :: l)) with (y ++ Sign "," :: commas (z :: l)). rewrite app_length. cbn [length]. destruct I as [->|I]; [lia|]. specialize (IH _ I). lia.
Qed.
Lemma lit_len : forall x es e, In e es -> length (spell_elem e) < length (spell (lit x es)).
Proof.
  intros x es e I. unfold lit. cbn [spell].
  change (fun e : option expr * expr => match fst e with Some k => spell k ++ Sign ":" :: spell (snd e) | None => spell (snd e) end) with spell_elem.
  unfold dotted. cbn [app length]. rewrite app_length. pose proof (commas_len (map spell_elem es) (spell_elem e) (in_map _ _ _ I)). lia.
Qed.
Lemma lit_len2 : forall x es k e, In (k, e) es -> length (spell e) < length (spell (lit x es)).
Proof. intros x es k e I. pose proof (lit_len x es _ I) as H. unfold spell_elem in H. cbn [fst snd] in H. destruct k; [rewrite app_length in H; cbn [length] in H|]; lia. Qed.
Lemma call_len : forall x es e, In e es -> length (spell e) < length (spell (call x es)).
Proof. intros x es e I. unfold call. cbn [spell]. unfold dotted. cbn [app length]. rewrite app_length. pose proof (commas_len (map spell es) (spell e) (in_map _ _ _ I)). lia. Qed.

Ltac known := unfold lit, call; cbn [value_of];
  repeat match goal with |- context [is_parser ?p ?g ?s] => let v := eval vm_compute in (is_parser p g s) in change (is_parser p g s) with v; cbv iota end.
Lemma all_some_map : forall A B (f : A -> option B) (g : A -> B) l, Forall (fun x => f x = Some (g x)) l -> all_some (map f l) = Some (map g l).
Proof. induction 1 as [|x l H F IH]; simpl; auto. rewrite H. cbn [opt_bind]. rewrite IH. reflexivity. Qed.
Lemma all_some_if : forall A B (f : A -> option B) (g : A -> B) (b : A -> bool) l, Forall (fun x => f x = if b x then Some (g x) else None) l ->
  all_some (map f l) = if forallb b l then Some (map g l) else None.
Proof. induction 1 as [|x l H F IH]; simpl; auto. rewrite H. destruct (b x); auto. cbn [opt_bind andb]. rewrite IH. destruct (forallb b l); reflexivity. Qed.
Lemma sorted_quants : forall g, NoDup (keys g) -> quants_grammar_b (sorted g) = quants_grammar_b g.
Proof.
  intros g N. unfold quants_grammar_b. apply eq_true_iff_eq. rewrite !forallb_forall. split; intros H [k v] I; apply H.
  - apply lookup_In. rewrite sorted_lookup by auto. apply In_lookup; auto.
  - apply lookup_In. apply sorted_In. auto.
Qed.
Lemma positional_pos : forall es, positional (map pos es) = true.
Proof. induction es; auto. Qed.
Lemma distinct_nodup : forall l, NoDup l -> distinct (map bs l) = true.
Proof.
  induction 1 as [|x l N D IH]; auto. cbn [map distinct]. rewrite IH. destruct (existsb (beqb (bs x)) (map bs l)) eqn:E; auto.
  apply existsb_exists in E as (y & I & E). apply beqb_eq in E. apply in_map_iff in I as (z & Z & I). exfalso. apply N.
  assert (z = x) by (rewrite <- (sb_bs z), <- (sb_bs x); congruence). congruence.
Qed.
Lemma combine_keys : forall (l : list (string * term)), combine (map sb (map bs (keys l))) (map (fun kv => norm (snd kv)) l) = norm_rules l.
Proof. induction l as [|[k t] l IH]; auto. unfold keys, norm_rules in *. cbn [map combine fst snd]. rewrite sb_bs. f_equal. exact IH. Qed.
Lemma grammar_value : forall l f, NoDup (keys l) -> Forall (fun kv : string * term => value_of f (ge (snd kv)) = if quants_b (snd kv) then Some (VTerm (norm (snd kv))) else None) l ->
  value_of (S f) (grammar_expr l) = if quants_grammar_b l then Some (VGrammar (norm_rules l)) else None.
Proof.
  intros l f N F. unfold grammar_expr. known. rewrite !map_map.
  assert (A : all_some (map (fun kv : string * term => entry_key (rule_elem (fst kv, ge (snd kv)))) l) = Some (map bs (keys l))).
  { unfold keys. rewrite map_map. apply all_some_map. apply Forall_forall. intros [k t] I. reflexivity. }
  assert (B : all_some (map (fun kv : string * term => as_term (value_of f (snd (rule_elem (fst kv, ge (snd kv)))))) l) = if quants_grammar_b l then Some (map (fun kv => norm (snd kv)) l) else None).
  { apply all_some_if. eapply Forall_impl; [|exact F]. intros [k t] H. cbn [rule_elem fst snd] in *. rewrite H. destruct (quants_b t); reflexivity. }
  rewrite A. cbn [opt_bind]. rewrite B. destruct (quants_grammar_b l); auto. cbn [opt_bind]. rewrite distinct_nodup by auto. rewrite combine_keys. reflexivity.
Qed.
Lemma delim_fields : forall t sep (a : assoc) (cs ce : bool),
  struct_fields ["Term"; "Sep"; "Assoc"; "CanStartWithSep"; "CanEndWithSep"]%string
    ([fld "Term" t; fld "Sep" sep]
        ++ (if cs then [fld "CanStartWithSep" (EName (bs "true"))] else [])
        ++ (if ce then [fld "CanEndWithSep" (EName (bs "true"))] else [])
        ++ (match a with
            | LeftToRight => [fld "Assoc" (EMember pkg (bs "LeftToRight"))]
            | RightToLeft => [fld "Assoc" (EMember pkg (bs "RightToLeft"))]
            | NonAssociative => []
            end))
  = Some [Some t; Some sep; match a with LeftToRight => Some (EMember pkg (bs "LeftToRight")) | RightToLeft => Some (EMember pkg (bs "RightToLeft")) | NonAssociative => None end;
          if cs then Some (EName (bs "true")) else None; if ce then Some (EName (bs "true")) else None].
Proof. intros t sep [] [] []; reflexivity. Qed.
Lemma term_value : forall t f, okt t -> length (spell (ge t)) < f -> value_of f (ge t) = if quants_b t then Some (VTerm (norm t)) else None.
Proof.
  assert (L : forall x ts f, Forall (fun t => forall f, okt t -> length (spell (ge t)) < f -> value_of f (ge t) = if quants_b t then Some (VTerm (norm t)) else None) ts -> fold_right (fun x Q => okt x /\ Q) True ts ->
    length (spell (lit x (map pos (map ge ts)))) < S f -> all_some (map (fun e => as_term (value_of f (snd e))) (map pos (map ge ts))) = if forallb quants_b ts then Some (map norm ts) else None).
  { intros x ts f F O LN. rewrite !map_map. apply all_some_if. apply (all_Forall _ okt ts) in O. rewrite Forall_forall in *. intros t I. cbn [pos snd].
    rewrite F; auto; [destruct (quants_b t); reflexivity|]. assert (J : In (pos (ge t)) (map pos (map ge ts))) by (apply in_map, in_map; auto). pose proof (lit_len2 x _ _ _ J). lia. }
  induction t using term_ind'; intros f O LN; (destruct f as [|f]; [lia|]); cbn [okt ge norm quants_b] in *.
  - destruct (has_at r); known; cbn [text_value opt_bind]; rewrite ?sb_bs; reflexivity.
  - known. rewrite text_expr_value. reflexivity.
  - known. rewrite text_expr_value. reflexivity.
  - assert (SF : forall e, struct_fields ["Ident"; "Default"]%string (fld "Ident" (EText (bs i)) :: match e with Some e => [fld "Default" e] | None => [] end) = Some [Some (EText (bs i)); e]).
    { intros [e|]; reflexivity. }
    destruct d as [s|].
    + pose proof (SF (Some (call "S" [text_expr s]))) as SF1. cbn [app] in *. unfold lit. cbn [value_of].
      repeat match goal with |- context [is_parser ?p ?g ?s] => let v := eval vm_compute in (is_parser p g s) in change (is_parser p g s) with v; cbv iota end.
      rewrite SF1. cbn [opt_bind or_zero text_value]. rewrite sb_bs. destruct f as [|f].
      { pose proof (lit_len2 "REF" [fld "Ident" (EText (bs i)); fld "Default" (call "S" [text_expr s])] _ _ (or_intror (or_introl eq_refl))). lia. }
      known. rewrite text_expr_value. reflexivity.
    + pose proof (SF None) as SF1. known. rewrite SF1. cbn [opt_bind or_zero text_value]. rewrite sb_bs. reflexivity.
  - known. rewrite text_expr_value. cbn [opt_bind]. rewrite sb_bs. reflexivity.
  - known. rewrite positional_pos. rewrite (L "Seq"%string) by auto. destruct (forallb quants_b ts); reflexivity.
  - known. rewrite positional_pos. rewrite (L "Oneof"%string) by auto. destruct (forallb quants_b ts); reflexivity.
  - known. rewrite positional_pos. rewrite (L "Stack"%string) by auto. destruct (forallb quants_b ts); reflexivity.
  - destruct O as [O1 O2].
    match type of LN with length (spell (lit _ ?es)) < _ =>
      pose proof (lit_len2 "Delim" es (Some (EName (bs "Term"))) (ge t1) (or_introl eq_refl)) as L1;
      pose proof (lit_len2 "Delim" es (Some (EName (bs "Sep"))) (ge t2) (or_intror (or_introl eq_refl))) as L2
    end.
    assert (M1 : length (spell (ge t1)) < f) by lia. assert (M2 : length (spell (ge t2)) < f) by lia. clear L1 L2 LN.
 unfold lit. cbn [value_of].
    repeat match goal with |- context [is_parser ?p ?g ?s] => let v := eval vm_compute in (is_parser p g s) in change (is_parser p g s) with v; cbv iota end.
    rewrite delim_fields. cbn [needed]. rewrite IHt1 by auto. rewrite IHt2 by auto. destruct (quants_b t1), (quants_b t2), a, cs, ce; reflexivity.
  - known. pose proof (lit_len2 "LookAhead" [pos (ge t)] _ _ (or_introl eq_refl)). change (struct_fields ["Term"]%string [pos (ge t)]) with (Some [Some (ge t)]). cbv iota. cbn [needed]. rewrite IHt; auto; [destruct (quants_b t); reflexivity|lia].
  - unfold simple_b. destruct (Nat.eqb mn 0 && Nat.eqb mx 0)%bool eqn:Q1; [|destruct (Nat.eqb mn 1 && Nat.eqb mx 0)%bool eqn:Q2; [|destruct (Nat.eqb mn 0 && Nat.eqb mx 1)%bool eqn:Q3]]; cbn [orb andb] in *.
    1: apply andb_prop in Q1 as [Q Q']. 2: apply andb_prop in Q2 as [Q Q']. 3: apply andb_prop in Q3 as [Q Q'].
    1-3: apply Nat.eqb_eq in Q, Q'; subst mn mx.
    + known. pose proof (call_len "Any" [ge t] _ (or_introl eq_refl)). rewrite IHt; [destruct (quants_b t); reflexivity|auto|lia].
    + known. pose proof (call_len "Some" [ge t] _ (or_introl eq_refl)). rewrite IHt; [destruct (quants_b t); reflexivity|auto|lia].
    + known. pose proof (call_len "Opt" [ge t] _ (or_introl eq_refl)). rewrite IHt; [destruct (quants_b t); reflexivity|auto|lia].
    + known. reflexivity.
  - destruct O as [N O]. known. cbn [text_value opt_bind]. pose proof (call_len "Eq" [EText (bs n); ge t] _ (or_intror (or_introl eq_refl))). rewrite IHt; [|auto|lia]. destruct (quants_b t); auto. cbn [as_term opt_bind]. rewrite sb_bs. reflexivity.
  - destruct O as (O & N & G). apply (all_Forall _ (fun kv : string * term => rule_name (fst kv) /\ okt (snd kv)) g) in G. rewrite sorted_map in *.
    change (lit "Grammar" (map rule_elem (map (fun kv : string * term => (fst kv, ge (snd kv))) (sorted g)))) with (grammar_expr (sorted g)) in *.
    pose proof (lit_len2 "ScopedGrammar" [fld "Term" (ge t); fld "Grammar" (grammar_expr (sorted g))] _ _ (or_introl eq_refl)) as L1.
    pose proof (lit_len2 "ScopedGrammar" [fld "Term" (ge t); fld "Grammar" (grammar_expr (sorted g))] _ _ (or_intror (or_introl eq_refl))) as L2.
    assert (V : value_of f (grammar_expr (sorted g)) = if quants_grammar_b g then Some (VGrammar (norm_rules (sorted g))) else None).
    { destruct f as [|f]; [lia|]. rewrite <- sorted_quants by auto. apply grammar_value; [apply sorted_nodup; auto|]. rewrite Forall_forall in *. intros [k v] I. cbn [snd].
      assert (J : In (Some (EText (bs k)), ge v) (map rule_elem (map (fun kv : string * term => (fst kv, ge (snd kv))) (sorted g)))) by (apply (in_map rule_elem _ (k, ge v)), (in_map (fun kv : string * term => (fst kv, ge (snd kv))) _ (k, v)); auto).
      assert (L3 : length (spell (ge v)) < length (spell (grammar_expr (sorted g)))) by exact (lit_len2 "Grammar" _ _ _ J). apply sorted_In, lookup_In in I. apply (H _ I); [apply (G _ I)|]. cbn [snd]. lia. }
    remember (grammar_expr (sorted g)) as ee. known. change (struct_fields ["Term"; "Grammar"]%string [fld "Term" (ge t); fld "Grammar" ee]) with (Some [Some (ge t); Some ee]). cbv iota. cbn [needed or_zero].
    rewrite IHt by (auto || lia). rewrite V. fold (quants_grammar_b g). destruct (quants_b t), (quants_grammar_b g); auto. cbn [as_grammar as_term opt_bind]. rewrite ?sorted_map. reflexivity.
  - known. pose proof (lit_len2 "CutPoint" [pos (ge t)] _ _ (or_introl eq_refl)). change (struct_fields ["Term"]%string [pos (ge t)]) with (Some [Some (ge t)]). cbv iota. cbn [needed]. rewrite IHt; auto; [destruct (quants_b t); reflexivity|lia].
Qed.

(** ** Reading a grammar back *)
Lemma text_expr_shaped : forall s, shaped (text_expr s) = true.
Proof. intros s. apply sum_of_shaped. exact Logic.I. Qed.
Lemma shaped_pos : forall ts, Forall (fun t => shaped (ge t) = true) ts -> forallb shaped_elem (map pos (map ge ts)) = true.
Proof. induction 1 as [|t ts H F IH]; auto. cbn [map forallb]. rewrite IH. unfold shaped_elem, pos. cbn [fst snd]. rewrite H. reflexivity. Qed.
Lemma shaped_rules : forall l, Forall (fun kv : string * term => shaped (ge (snd kv)) = true) l -> shaped (grammar_expr l) = true.
Proof.
  intros l F. unfold grammar_expr, lit. cbn [shaped]. induction F as [|kv l H F IH]; auto. cbn [map forallb rule_elem fst snd shaped]. rewrite H. exact IH.
Qed.
Lemma ge_shaped : forall t, shaped (ge t) = true.
Proof.
  induction t using term_ind'; cbn [ge]; try (unfold lit; cbn [shaped]; apply shaped_pos; assumption); try (unfold call; cbn [shaped forallb]; rewrite text_expr_shaped; reflexivity).
  - destruct (has_at r); reflexivity.
  - destruct d as [s|]; [|reflexivity]. unfold lit, call, fld. cbn [shaped forallb fst snd]. rewrite text_expr_shaped. reflexivity.
  - unfold lit, fld. cbn [app shaped forallb fst snd]. rewrite IHt1, IHt2. destruct a, cs, ce; reflexivity.
  - unfold lit, pos. cbn [shaped forallb fst snd]. rewrite IHt. reflexivity.
  - destruct (_ && _)%bool; [|destruct (_ && _)%bool; [|destruct (_ && _)%bool]]; unfold lit, call, pos, fld; cbn [shaped forallb fst snd]; rewrite IHt; reflexivity.
  - unfold call. cbn [shaped forallb]. rewrite IHt. reflexivity.
  - rewrite sorted_map. change (lit "Grammar" (map rule_elem (map (fun kv : string * term => (fst kv, ge (snd kv))) (sorted g)))) with (grammar_expr (sorted g)).
    assert (G : shaped (grammar_expr (sorted g)) = true).
    { apply shaped_rules. rewrite Forall_forall in *. intros [k v] I. apply sorted_In, lookup_In in I. apply (H _ I). }
    unfold lit, fld. cbn [shaped forallb fst snd]. rewrite IHt, G. reflexivity.
  - unfold lit, pos. cbn [shaped forallb fst snd]. rewrite IHt. reflexivity.
Qed.

Definition flat_node (l : grammar) : gonode := GoNode (bs "parser.Grammar") (map (fun kv : string * term => entry (fst kv) (walk_term (snd kv))) l) SquigglyScope.
Lemma flat_value : forall l, NoDup (keys l) -> Forall (fun kv : string * term => rule_name (fst kv) /\ okt (snd kv)) l ->
  utf8 (gostring (flat_node l)) /\ read_grammar (gostring (flat_node l)) = if quants_grammar_b l then Some (norm_rules l) else None.
Proof.
  intros l N F. split.
  - apply lit_utf8; [reflexivity|]. rewrite Forall_map. eapply Forall_impl; [|exact F]. intros [k t] [R O]. cbn [fst snd] in *. apply entry_utf8; auto. apply term_utf8; auto.
  - assert (T : tokens (Gap false) (gostring (flat_node l)) = Some (spell (grammar_expr l))).
    { assert (W : writes (gostring (flat_node l)) (spell (grammar_expr l))).
      { unfold flat_node, grammar_expr.
        replace (map (fun kv : string * term => entry (fst kv) (walk_term (snd kv))) l) with (map (fun kv => entry (fst kv) (snd kv)) (map (fun kv : string * term => (fst kv, walk_term (snd kv))) l)) by (rewrite map_map; reflexivity).
        apply flat_grammar_writes. apply Forall2_maps. eapply Forall_impl; [|exact F]. intros [k t] [R O]. cbn [fst snd] in *. split; auto. split; auto. apply term_writes; auto. }
      pose proof (W false [] Logic.I) as H. rewrite app_nil_r in H. rewrite H. cbn. now rewrite app_nil_r. }
    unfold read_grammar. rewrite T.
    assert (SH : shaped (grammar_expr l) = true) by (apply shaped_rules, Forall_forall; intros; apply ge_shaped).
    pose proof (read_spelled (grammar_expr l) [] (S (4 * length (spell (grammar_expr l)))) SH) as R. rewrite app_nil_r in R.
    rewrite R; [|split; exact Logic.I|pose proof (need_spell (grammar_expr l)); lia].
    assert (V : value_of (S (length (spell (grammar_expr l)))) (grammar_expr l) = if quants_grammar_b l then Some (VGrammar (norm_rules l)) else None).
    { apply grammar_value; auto. rewrite Forall_forall in *. intros [k v] I. cbn [snd]. apply term_value; [apply (F _ I)|].
      assert (J : In (Some (EText (bs k)), ge v) (map rule_elem (map (fun kv : string * term => (fst kv, ge (snd kv))) l))) by (apply (in_map rule_elem _ (k, ge v)), (in_map (fun kv : string * term => (fst kv, ge (snd kv))) _ (k, v)); auto).
      exact (lit_len2 "Grammar" _ _ _ J). }
    rewrite V. destruct (quants_grammar_b l); reflexivity.
Qed.

(** ** Stacks *)
Lemma ascii_lt_trans : forall a b c, Ascii.compare a b = Lt -> Ascii.compare b c = Lt -> Ascii.compare a c = Lt.
Proof. intros a b c. unfold Ascii.compare. rewrite !N.compare_lt_iff. apply N.lt_trans. Qed.
Lemma ascii_refl : forall a, Ascii.compare a a = Eq.
Proof. intros a. unfold Ascii.compare. apply N.compare_refl. Qed.
Lemma string_lt_trans : forall a b c, String.compare a b = Lt -> String.compare b c = Lt -> String.compare a c = Lt.
Proof.
  induction a as [|x a IH]; intros [|y b] [|z c] H1 H2; simpl in *; try discriminate; auto.
  destruct (Ascii.compare x y) eqn:XY; try discriminate; destruct (Ascii.compare y z) eqn:YZ; try discriminate.
  - apply Ascii.compare_eq_iff in XY, YZ. subst. rewrite ascii_refl. eauto.
  - apply Ascii.compare_eq_iff in XY. subst. rewrite YZ. auto.
  - apply Ascii.compare_eq_iff in YZ. subst. rewrite XY. auto.
  - rewrite (ascii_lt_trans _ _ _ XY YZ). auto.
Qed.
Lemma string_refl : forall a, String.compare a a = Eq.
Proof. induction a; simpl; auto. now rewrite ascii_refl. Qed.
Definition string_le (a b : string) : Prop := String.compare a b <> Gt.
Lemma string_le_trans : forall a b c, string_le a b -> string_le b c -> string_le a c.
Proof.
  unfold string_le. intros a b c H1 H2. destruct (String.compare a b) eqn:AB; [| |congruence].
  - apply String.compare_eq_iff in AB. now subst.
  - destruct (String.compare b c) eqn:BC; [| |congruence].
    + apply String.compare_eq_iff in BC. subst. now rewrite AB.
    + rewrite (string_lt_trans _ _ _ AB BC). discriminate.
Qed.
Inductive ordered : list string -> Prop :=
| ord_nil : ordered []
| ord_cons x l : Forall (string_le x) l -> ordered l -> ordered (x :: l).
Lemma insert_ordered : forall x l, ordered l -> ordered (insert_string x l).
Proof.
  induction 1 as [|y l F O IH]; simpl; [repeat constructor|]. destruct (String.compare x y) eqn:E.
  - constructor; [|constructor; auto]. constructor; [unfold string_le; congruence|]. apply String.compare_eq_iff in E. now subst.
  - constructor; [|constructor; auto]. constructor; [unfold string_le; congruence|]. eapply Forall_impl; [|exact F]. intros z. apply string_le_trans. unfold string_le. congruence.
  - constructor; auto. assert (YX : string_le y x) by (unfold string_le; rewrite String.compare_antisym, E; discriminate).
    rewrite Forall_forall in *. intros z I. apply (Permutation_in z (insert_perm x l)) in I. destruct I as [<-|I]; auto.
Qed.
Lemma sort_ordered : forall l, ordered (sort_strings l).
Proof. induction l; simpl; [constructor|]. apply insert_ordered. auto. Qed.
Lemma longer_gt : forall b c d, String.compare (b ++ String c d) b = Gt.
Proof. induction b as [|x b IH]; intros c d; simpl; auto. rewrite ascii_refl. auto. Qed.

Lemma level_at : forall b i, has_at (level b (S i)) = true.
Proof. intros b i. apply has_at_In. unfold level. rewrite bs_app. apply in_or_app. right. now left. Qed.
Lemma before_app : forall b r, ~ In "@"%char b -> before_at (b ++ "@"%char :: r) = b.
Proof. induction b as [|c b IH]; intros r N; cbn [app before_at]; auto. destruct (Ascii.eqb_spec "@" c) as [<-|NE]; [destruct N; now left|]. f_equal. apply IH. intros I. apply N. now right. Qed.
Lemma before_no_at : forall b, ~ In "@"%char (before_at b).
Proof. induction b as [|c b IH]; cbn [before_at]; auto. destruct (Ascii.eqb_spec "@" c) as [|NE]; [auto|]. intros [Q|Q]; [congruence|auto]. Qed.
Lemma not_at : forall b, has_at b = false -> ~ In "@"%char (bs b).
Proof. intros b H I. apply has_at_In in I. congruence. Qed.
Lemma base_level : forall b i, has_at b = false -> sb (before_at (bs (level b (S i)))) = b.
Proof. intros b i H. unfold level. rewrite bs_app. change (bs ("@" ++ NilEmpty.string_of_uint (Nat.to_uint (S i)))%string) with ("@"%char :: bs (NilEmpty.string_of_uint (Nat.to_uint (S i)))). rewrite before_app by (apply not_at; auto). apply sb_bs. Qed.
Lemma level_eq : forall b b' i j, has_at b = false -> has_at b' = false -> level b i = level b' j -> b = b' /\ i = j.
Proof.
  intros b b' [|i] [|j] H H' E.
  - auto.
  - change (level b 0) with b in E. pose proof (level_at b' j). congruence.
  - change (level b' 0) with b' in E. pose proof (level_at b i). congruence.
  - apply level_inj in E; auto.
Qed.

Section Adel.
  Context {A : Type}.
  Lemma lookup_adel_eq : forall k (l : list (string * A)), lookup k (adel k l) = None.
  Proof. induction l as [|[k' v] l IH]; simpl; auto. destruct (String.eqb k k') eqn:E; simpl; auto. rewrite E. auto. Qed.
  Lemma lookup_adel_neq : forall k k2 (l : list (string * A)), k <> k2 -> lookup k2 (adel k l) = lookup k2 l.
  Proof.
    intros k k2 l N. induction l as [|[k' v] l IH]; simpl; auto. destruct (String.eqb_spec k k') as [<-|NE].
    - destruct (String.eqb_spec k2 k); [congruence|auto].
    - simpl. destruct (String.eqb k2 k'); auto.
  Qed.
End Adel.

(** The layers of a stack. *)
Lemma take_layers_ok : forall m fuel b i rules (get : nat -> gonode), i <> 0 ->
  (forall j, i <= j < i + m -> lookup (level b j) rules = Some (get j)) -> lookup (level b (i + m)) rules = None -> m <= fuel ->
  exists rules', take_layers fuel b i rules = (map get (seq i m), rules') /\
    (forall j, i <= j < i + m -> lookup (level b j) rules' = None) /\
    (forall x, (forall j, i <= j < i + m -> x <> level b j) -> lookup x rules' = lookup x rules).
Proof.
  induction m as [|m IH]; intros fuel b i rules get NZ P Q L.
  - exists rules. assert (LV : (b ++ "@" ++ dec i)%string = level b i) by (destruct i; [congruence|reflexivity]).
    split; [|split; [intros; lia|auto]]. destruct fuel; auto. cbn [take_layers]. rewrite LV. rewrite Nat.add_0_r in Q. rewrite Q. auto.
  - destruct fuel as [|fuel]; [lia|]. cbn [take_layers]. assert (LV : (b ++ "@" ++ dec i)%string = level b i) by (destruct i; [congruence|reflexivity]).
    rewrite LV, (P i) by lia.
    assert (NE : forall j, i < j -> level b i <> level b j) by (intros j J E; apply level_inj in E; lia).
    destruct (IH fuel b (i + 1) (adel (level b i) rules) get) as (rules' & T & R1 & R2); try lia.
    + intros j J. rewrite lookup_adel_neq by (apply NE; lia). apply P. lia.
    + rewrite lookup_adel_neq by (apply NE; lia). rewrite <- Q. f_equal. f_equal. lia.
    + rewrite T. exists rules'. split; [cbn [seq map]; rewrite Nat.add_1_r; reflexivity|]. split.
      * intros j J. destruct (Nat.eq_dec j i) as [->|NJ]; [|apply R1; lia]. rewrite R2 by (intros k K; apply NE; lia). apply lookup_adel_eq.
      * intros x X. rewrite R2 by (intros j J; apply X; lia). apply lookup_adel_neq. intros E. apply (X i); [lia|auto].
Qed.

(** The rules that are layers, by the number of layers. *)
Record layered (G : grammar) (n : string -> nat) : Prop := {
  ly_nodup : NoDup (keys G);
  ly_keys : forall x, In x (keys G) <-> exists b i, has_at b = false /\ i < n b /\ x = level b i
}.
Definition get (k : string) (G : grammar) : term := match lookup k G with Some t => t | None => TSeq [] end.
Definition restack (G : grammar) (n : string -> nat) (k : string) : term :=
  if Nat.leb 2 (n k) then TStack (map (fun i => get (level k i) G) (seq 0 (n k))) else get k G.
Definition restacked (G : grammar) (n : string -> nat) : grammar :=
  map (fun k => (k, restack G n k)) (filter (fun k => negb (has_at k)) (sort_strings (keys G))).

Section Layered.
  Variables (G : grammar) (n : string -> nat).
  Hypothesis Ly : layered G n.
  Let prefixes := map (fun r => sb (before_at (bs r))) (filter has_at (keys G)).
  Let R := map (fun kv : string * term => (fst kv, walk_term (snd kv))) G.
  Lemma keys_R : keys R = keys G.
  Proof. unfold R, keys. rewrite map_map. apply map_ext. auto. Qed.
  Lemma lookup_R : forall k, lookup k R = option_map walk_term (lookup k G).
  Proof. intros k. unfold R. rewrite (lookup_map _ _ (fun _ => walk_term)). auto. Qed.
  Lemma lookup_get : forall k, In k (keys G) -> lookup k R = Some (walk_term (get k G)).
  Proof. intros k I. rewrite lookup_R. unfold get. destruct (lookup k G) eqn:E; auto. apply lookup_None in E. contradiction. Qed.
  Lemma is_prefix : forall k, In k (keys G) -> existsb (String.eqb k) prefixes = (negb (has_at k) && Nat.leb 2 (n k))%bool.
  Proof.
    intros k I. unfold prefixes. destruct (existsb _ _) eqn:E; symmetry.
    - apply existsb_exists in E as (x & IX & E). apply String.eqb_eq in E. subst x. apply in_map_iff in IX as (y & Y & IY). apply filter_In in IY as [IY AY].
      apply (ly_keys _ _ Ly) in IY as (b & i & Hb & Hi & ->). destruct i as [|i]; [change (level b 0) with b in AY; congruence|]. rewrite base_level in Y by auto. subst b.
      rewrite Hb. cbn [negb andb]. apply Nat.leb_le. lia.
    - destruct (has_at k) eqn:A; auto. cbn [negb andb]. apply Nat.leb_gt. destruct (Nat.lt_ge_cases (n k) 2) as [|GE]; auto. exfalso.
      assert (C : existsb (String.eqb k) (map (fun r => sb (before_at (bs r))) (filter has_at (keys G))) = true); [|congruence].
      apply existsb_exists. exists k. split; [|apply String.eqb_refl]. apply in_map_iff. exists (level k 1). split; [apply base_level; auto|]. apply filter_In. split; [|apply level_at].
      apply (ly_keys _ _ Ly). exists k, 1. split; auto.
  Qed.
  Lemma n_bound : forall b rules, has_at b = false -> (forall j, 1 <= j < n b -> lookup (level b j) rules <> None) -> n b - 1 <= length (rules : list (string * gonode)).
  Proof.
    intros b rules Hb P. rewrite <- (map_length fst rules). rewrite <- (seq_length (n b - 1) 1), <- (map_length (level b)). apply NoDup_incl_length.
    - apply Coq.Logic.FinFun.Injective_map_NoDup; [|apply seq_NoDup]. intros i j E. apply level_eq in E as [_ E]; auto.
    - intros x I. apply in_map_iff in I as (j & <- & J). apply in_seq in J. assert (L : lookup (level b j) rules <> None) by (apply P; lia).
      destruct (lookup (level b j) rules) eqn:E; [|congruence]. apply lookup_In in E. apply (in_map fst) in E. exact E.
  Qed.

  Lemma existsb_In : forall x l, existsb (String.eqb x) l = true <-> In x l.
  Proof. intros x l. rewrite existsb_exists. split; [intros (y & I & E); apply String.eqb_eq in E; now subst|]. intros I. exists x. split; auto. apply String.eqb_refl. Qed.
  Lemma entries_layered : forall ks rules, ordered ks -> NoDup ks -> incl ks (keys G) ->
    (forall x, lookup x rules = match lookup x R with
       | Some t => if (has_at x && negb (existsb (String.eqb (sb (before_at (bs x)))) ks))%bool then None else Some t | None => None end) ->
    entries prefixes ks rules = map (fun k => entry k (walk_term (restack G n k))) (filter (fun k => negb (has_at k)) ks).
  Proof.
    induction ks as [|k ks IH]; intros rules O N I L; auto. cbn [entries filter].
    assert (Ik : In k (keys G)) by (apply I; now left). inversion O as [|? ? OF O']; subst. inversion N as [|? ? NK N']; subst.
    assert (I' : incl ks (keys G)) by (intros x J; apply I; now right).
    rewrite is_prefix by auto. destruct (has_at k) eqn:A; cbn [negb andb].
    - pose proof Ik as Ik2. apply (ly_keys _ _ Ly) in Ik2 as (b & i & Hb & Hi & E). destruct i as [|i]; [change (level b 0) with b in E; congruence|].
      assert (NB : ~ In b ks).
      { intros J. rewrite Forall_forall in OF. specialize (OF _ J). apply OF. rewrite E. unfold level. apply longer_gt. }
      assert (BK : sb (before_at (bs k)) = b) by (rewrite E; apply base_level; auto).
      assert (K0 : lookup k rules = None).
      { rewrite L. destruct (lookup k R); auto. rewrite A, BK. cbn [existsb]. destruct (String.eqb_spec b k) as [->|]; [congruence|]. cbn [orb].
        destruct (existsb (String.eqb b) ks) eqn:X; auto. apply existsb_In in X. contradiction. }
      rewrite K0. apply IH; auto. intros x. rewrite L. destruct (lookup x R); auto. destruct (has_at x) eqn:AX; auto. cbn [andb existsb].
      destruct (String.eqb_spec (sb (before_at (bs x))) k) as [EX|]; auto. exfalso.
      assert (F : has_at (sb (before_at (bs x))) = false).
      { destruct (has_at (sb (before_at (bs x)))) eqn:Q; auto. apply has_at_In in Q. rewrite bs_sb in Q. apply before_no_at in Q. contradiction. }
      congruence.
    - assert (LK : lookup k rules = Some (walk_term (get k G))) by (rewrite L, (lookup_get k), A; auto).
      assert (RS : restack G n k = if Nat.leb 2 (n k) then TStack (map (fun i => get (level k i) G) (seq 0 (n k))) else get k G) by reflexivity.
      destruct (Nat.leb 2 (n k)) eqn:N2.
      + apply Nat.leb_le in N2. rewrite LK.
        assert (Q : forall j, 1 <= j < 1 + (n k - 1) -> lookup (level k j) rules = Some (walk_term (get (level k j) G))).
        { intros j J. rewrite L. rewrite lookup_get by (apply (ly_keys _ _ Ly); exists k, j; repeat split; auto; lia).
          destruct j as [|j]; [lia|]. rewrite base_level by auto. cbn [existsb]. rewrite String.eqb_refl. rewrite Bool.andb_false_r. auto. }
        destruct (take_layers_ok (n k - 1) (length rules) k 1 rules (fun j => walk_term (get (level k j) G))) as (rules' & T & R1 & R2); auto.
        * rewrite L. destruct (lookup (level k (1 + (n k - 1))) R) eqn:E; auto. exfalso. assert (J : In (level k (1 + (n k - 1))) (keys G)).
          { rewrite <- keys_R. apply lookup_In in E. apply (in_map fst) in E. exact E. }
          apply (ly_keys _ _ Ly) in J as (b & i & Hb & Hi & E2). apply level_eq in E2 as [<- E2]; auto. lia.
        * apply n_bound; auto. intros j J. rewrite Q by lia. discriminate.
        * rewrite T. cbn [map]. f_equal.
          -- rewrite RS. cbn [walk_term]. f_equal. f_equal. rewrite map_map. assert (NS : n k = S (n k - 1)) by lia. rewrite NS at 2. cbn [seq map]. change (level k 0) with k. reflexivity.
          -- apply IH; auto. intros x. destruct (lookup x R) as [t|] eqn:EX.
             ++ assert (J : In x (keys G)) by (rewrite <- keys_R; apply lookup_In in EX; apply (in_map fst) in EX; exact EX).
                apply (ly_keys _ _ Ly) in J as (b & i & Hb & Hi & E2). destruct i as [|i].
                ** change (level b 0) with b in E2. subst b. rewrite Hb. cbn [andb]. rewrite R2; [rewrite L, EX, Hb; auto|]. intros [|j] J E3; [lia|]. pose proof (level_at k j). congruence.
                ** rewrite E2, level_at, base_level by auto. cbn [andb]. destruct (String.eqb_spec b k) as [->|NBK].
                   --- rewrite R1 by lia. destruct (existsb (String.eqb k) ks) eqn:X; auto. apply existsb_In in X. contradiction.
                   --- rewrite R2 by (intros j J E3; apply level_eq in E3 as [E3 _]; auto). rewrite L, <- E2, EX, E2, level_at, base_level by auto. cbn [existsb andb].
                       destruct (String.eqb_spec b k); [congruence|]. reflexivity.
             ++ destruct (lookup x rules') eqn:Y; auto. exfalso. destruct (in_dec string_dec x (map (level k) (seq 1 (n k - 1)))) as [J|J].
                ** apply in_map_iff in J as (j & <- & J). apply in_seq in J. rewrite R1 in Y by lia. discriminate.
                ** rewrite R2 in Y; [rewrite L, EX in Y; discriminate|]. intros j K ->. apply J. apply in_map, in_seq. lia.
      + rewrite LK. cbn [map]. rewrite RS. f_equal. apply IH; auto. intros x. rewrite L. destruct (lookup x R) eqn:EX; auto.
        destruct (has_at x) eqn:AX; auto. cbn [andb existsb]. destruct (String.eqb_spec (sb (before_at (bs x))) k) as [E|]; auto. exfalso.
        assert (J : In x (keys G)) by (rewrite <- keys_R; apply lookup_In in EX; apply (in_map fst) in EX; exact EX).
        apply (ly_keys _ _ Ly) in J as (b & i & Hb & Hi & ->). destruct i as [|i]; [change (level b 0) with b in AX; congruence|]. rewrite base_level in E by auto. subst. apply Nat.leb_gt in N2. lia.
  Qed.
  Lemma layered_node : make_grammar_string G = flat_node (restacked G n).
  Proof.
    unfold make_grammar_string, grammar_node, flat_node, restacked. fold R. rewrite keys_R. fold prefixes. rewrite map_map. f_equal. apply entries_layered.
    - apply sort_ordered.
    - eapply Permutation_NoDup; [apply Permutation_sym, sort_perm|apply (ly_nodup _ _ Ly)].
    - intros x I. eapply Permutation_in; [apply sort_perm|exact I].
    - intros x. destruct (lookup x R) eqn:EX; auto. destruct (has_at x) eqn:AX; auto. cbn [andb].
      assert (J : In x (keys G)) by (rewrite <- keys_R; apply lookup_In in EX; apply (in_map fst) in EX; exact EX).
      apply (ly_keys _ _ Ly) in J as (b & i & Hb & Hi & ->). destruct i as [|i]; [change (level b 0) with b in AX; congruence|]. rewrite base_level by auto.
      assert (K : existsb (String.eqb b) (sort_strings (keys G)) = true).
      { apply existsb_In. eapply Permutation_in; [apply Permutation_sym, sort_perm|]. apply (ly_keys _ _ Ly). exists b, 0. repeat split; auto. lia. }
      rewrite K. auto.
  Qed.
End Layered.

(** ** Grammars that can be written *)
Lemma writable_fold : forall ts, Forall (fun t => writable t -> okt t) ts -> Forall writable ts -> fold_right (fun x Q => okt x /\ Q) True ts.
Proof. induction 1; intros W; simpl; auto. inversion W; subst. auto. Qed.
Lemma writable_ok : forall t, writable t -> okt t.
Proof.
  induction t using term_ind'; intros W; inversion W; subst; cbn [okt]; auto using writable_fold.
  - match goal with W : writable_grammar _ |- _ => inversion W as [? NG FG]; subst end. split; auto. split; auto.
    apply (all_Forall _ (fun kv : string * term => rule_name (fst kv) /\ okt (snd kv)) g). rewrite Forall_forall in *. intros kv I. split; [apply FG; auto|]. apply H; auto. apply FG; auto.
Qed.
Lemma at_free_rule : forall r, writable (TRule r) -> r <> "@"%string -> has_at r = false /\ raw_name r.
Proof. intros r W N. inversion W; subst; [congruence|]. split; auto. destruct (has_at r) eqn:E; auto. apply has_at_In in E. contradiction. Qed.

Lemma put_ok : forall t x u, put x t u -> writable t -> has_at x = true \/ raw_name x -> okt u.
Proof.
  assert (L : forall ts x us, Forall (fun t => forall x u, put x t u -> writable t -> has_at x = true \/ raw_name x -> okt u) ts -> Forall2 (put x) ts us -> Forall writable ts ->
    has_at x = true \/ raw_name x -> fold_right (fun x Q => okt x /\ Q) True us).
  { intros ts x us F F2. induction F2; intros W X; simpl; auto. inversion F; subst. inversion W; subst. split; eauto. }
  induction t using term_ind'; intros x u P W X; inversion P; subst; try (inversion W; subst; cbn [okt]; eauto; fail); auto.
Qed.
Lemma put_quants : forall t x u, put x t u -> quants_b u = quants_b t.
Proof.
  assert (L : forall ts x us, Forall (fun t => forall x u, put x t u -> quants_b u = quants_b t) ts -> Forall2 (put x) ts us -> forallb quants_b us = forallb quants_b ts).
  { intros ts x us F F2. induction F2; simpl; auto. inversion F; subst. f_equal; eauto. }
  induction t using term_ind'; intros x u P; inversion P; subst; cbn [quants_b]; auto; try (eapply L; eauto; fail); try (f_equal; eauto; fail).
  all: eapply IHt; eauto.
Qed.
Lemma put_writable : forall t x u, put x t u -> writable t -> raw_name x -> has_at x = false -> writable u.
Proof.
  assert (L : forall ts x us, Forall (fun t => forall x u, put x t u -> writable t -> raw_name x -> has_at x = false -> writable u) ts -> Forall2 (put x) ts us -> Forall writable ts ->
    raw_name x -> has_at x = false -> Forall writable us).
  { intros ts x us F F2. induction F2; intros W X A; auto. inversion F; subst. inversion W; subst. constructor; eauto. }
  induction t using term_ind'; intros x u P W X A; inversion P; subst; auto; try (inversion W; subst; try constructor; eauto; fail).
  - apply wr_rule; auto. apply not_at. auto.
Qed.
Lemma put_norm : forall t x u, put x t u -> writable t -> has_at x = true \/ raw_name x -> put x (norm u) u.
Proof.
  assert (L : forall ts x us, Forall (fun t => forall x u, put x t u -> writable t -> has_at x = true \/ raw_name x -> put x (norm u) u) ts -> Forall2 (put x) ts us -> Forall writable ts ->
    has_at x = true \/ raw_name x -> Forall2 (put x) (map norm us) us).
  { intros ts x us F F2. induction F2; intros W X; simpl; auto. inversion F; subst. inversion W; subst. constructor; eauto. }
  induction t using term_ind'; intros x u P W X; inversion P; subst; try (inversion W; subst; cbn [norm]; try constructor; eauto; fail).
  - cbn [norm]. destruct (has_at x) eqn:A; [constructor|]. apply put_rule. intros ->. discriminate.
  - cbn [norm]. destruct (at_free_rule _ W) as [-> _]; [auto|constructor; auto].
Qed.
Lemma put_norm_uncut : forall t x u, put x t u -> writable t -> has_at x = true \/ ~ mentions "@" t -> norm u = uncut t.
Proof.
  assert (L : forall ts x us, Forall (fun t => forall x u, put x t u -> writable t -> has_at x = true \/ ~ mentions "@" t -> norm u = uncut t) ts -> Forall2 (put x) ts us -> Forall writable ts ->
    has_at x = true \/ ~ Exists (mentions "@") ts -> map norm us = map uncut ts).
  { intros ts x us F F2. induction F2; intros W X; simpl; auto. inversion F; subst. inversion W; subst. f_equal; [eapply H2; eauto; destruct X as [X|X]; auto|apply IHF2; auto; destruct X as [X|X]; auto]. }
  induction t using term_ind'; intros x u P W X; inversion P; subst; cbn [norm uncut]; auto;
    try (inversion W; subst; f_equal; (eapply L || eapply IHt || eapply IHt1 || eapply IHt2); eauto; destruct X as [X|X]; auto; right; intros M; apply X; constructor; auto; fail).
  - destruct X as [X|X]; [now rewrite X|]. destruct X. constructor.
  - destruct (at_free_rule _ W) as [-> _]; auto.
  - inversion W; subst. eapply IHt; eauto. destruct X as [X|X]; auto. right. intros M. apply X. constructor. auto.
Qed.

Lemma clear_at_free : forall g, (forall k, In k (keys g) -> has_at k = false) -> clear_names g.
Proof.
  intros g H r ls i L I. apply lookup_None. intros J. apply H in J. destruct i as [|i]; [lia|]. rewrite level_at in J. discriminate.
Qed.
Lemma lookup_norm : forall g r, lookup r (norm_rules g) = option_map norm (lookup r g).
Proof. intros g r. unfold norm_rules. rewrite (lookup_map _ _ (fun _ => norm)). auto. Qed.
Lemma keys_norm : forall g, keys (norm_rules g) = keys g.
Proof. intros g. unfold norm_rules, keys. rewrite map_map. apply map_ext. auto. Qed.
Lemma reordered_norm : forall t, okt t -> reordered (norm t) (norm t).
Proof.
  assert (L : forall ts, Forall (fun t => okt t -> reordered (norm t) (norm t)) ts -> fold_right (fun x Q => okt x /\ Q) True ts -> Forall2 reordered (map norm ts) (map norm ts)).
  { induction 1; simpl; intros Q; constructor; tauto. }
  induction t using term_ind'; cbn [okt norm]; intros O; try (constructor; auto; fail).
  - constructor; tauto.
  - constructor. tauto.
  - destruct O as (O & N & G). apply (all_Forall _ (fun kv : string * term => rule_name (fst kv) /\ okt (snd kv)) g) in G. constructor; auto. fold (norm_rules g).
    assert (N2 : NoDup (keys (sorted (norm_rules g)))) by (apply sorted_nodup; rewrite keys_norm; auto).
    assert (N3 : NoDup (keys (norm_rules g))) by (rewrite keys_norm; auto).
    constructor; auto.
    + apply clear_at_free. intros k I. rewrite keys_sorted in I. apply (Permutation_in k (sort_perm _)) in I. rewrite keys_norm in I. unfold keys in I. apply in_map_iff in I as (kv & <- & I).
      rewrite Forall_forall in G. apply rule_name_at. apply (G _ I).
    + intros r u LU. exists u. split; auto. rewrite sorted_lookup, lookup_norm in LU by auto. destruct (lookup r g) as [t0|] eqn:E; [|discriminate]. cbn in LU. inversion LU; subst.
      apply lookup_In in E. rewrite Forall_forall in *. apply (H _ E). apply (G _ E).
Qed.
Lemma writable_reordered : forall t, writable t -> reordered t (norm t).
Proof.
  assert (L : forall ts, Forall (fun t => writable t -> reordered t (norm t)) ts -> Forall writable ts -> Forall2 reordered ts (map norm ts)).
  { induction 1; simpl; intros Q; constructor; inversion Q; subst; auto. }
  induction t using term_ind'; intros W; cbn [norm]; try (inversion W; subst; constructor; auto; fail).
  - inversion W as [|? ? N| | | | | | | | | | | | |]; subst; cbn; [constructor|]. destruct (has_at r) eqn:E; [|constructor]. apply has_at_In in E. contradiction.
  - inversion W as [| | | | | | | | | | | | | |? ? WT WG]; subst. inversion WG as [? N G]; subst. constructor; auto. fold (norm_rules g).
    assert (N3 : NoDup (keys (norm_rules g))) by (rewrite keys_norm; auto).
    constructor; auto.
    + apply sorted_nodup. auto.
    + apply clear_at_free. intros k I. unfold keys in I. apply in_map_iff in I as (kv & <- & I). rewrite Forall_forall in G. apply rule_name_at. apply (G _ I).
    + intros r E. rewrite sorted_lookup, lookup_norm, E by auto. reflexivity.
    + intros r t0 E. exists (norm t0). rewrite sorted_lookup, lookup_norm, E by auto. split; auto. apply lookup_In in E. rewrite Forall_forall in *. apply (H _ E). apply (G _ E).
Qed.

Lemma nth_error_same : forall A (a b : list A), (forall i, nth_error a i = nth_error b i) -> a = b.
Proof.
  induction a as [|x a IH]; intros [|y b] H; auto.
  - specialize (H 0). discriminate.
  - specialize (H 0). discriminate.
  - pose proof (H 0) as H0. injection H0 as ->. f_equal. apply IH. intros i. apply (H (S i)).
Qed.

(** ** The theorem *)
Definition layers (g : grammar) (r : string) : nat := match lookup r g with None => 0 | Some (TStack (_ :: ls)) => S (length ls) | Some _ => 1 end.
Section Written.
  Variables (g G : grammar).
  Hypothesis W : writable_grammar g.
  Hypothesis U : unstacked g G.
  Hypothesis N : NoDup (keys G).
  Hypothesis NS : forall r ls, lookup r G = Some (TStack ls) -> ls = [].

  Lemma rule_writable : forall r t, lookup r g = Some t -> rule_name r /\ writable t.
  Proof. intros r t L. inversion W as [? _ F]; subst. rewrite Forall_forall in F. apply lookup_In in L. apply (F _ L). Qed.
  Lemma g_at_free : forall r, lookup r g <> None -> has_at r = false.
  Proof. intros r L. destruct (lookup r g) as [t|] eqn:E; [|congruence]. apply rule_name_at. eapply rule_writable; eauto. Qed.
  Lemma In_keys : forall x, In x (keys G) <-> lookup x G <> None.
  Proof. intros x. split; [intros I E; apply lookup_None in E; auto|]. intros L. destruct (in_dec string_dec x (keys G)) as [|NI]; auto. apply lookup_None in NI. contradiction. Qed.
  Lemma G_layered : layered G (layers g).
  Proof.
    constructor; auto. intros x. rewrite In_keys. split.
    - intros L. destruct (us_only _ _ U x L) as [Lx|(r & ls & i & Lr & I & ->)].
      + exists x, 0. split; [apply g_at_free; auto|]. split; auto. unfold layers. destruct (lookup x g) as [[]|]; try lia; [|congruence]. destruct ts; lia.
      + exists r, i. split; [apply g_at_free; congruence|]. split; auto. unfold layers. rewrite Lr. destruct ls; simpl in *; lia.
    - intros (b & i & A & I & ->). unfold layers in I. destruct (lookup b g) as [t|] eqn:E; [|lia].
      destruct (is_nonempty_stack_dec t) as [(l & ls & ->)|Q].
      + destruct (nth_error (l :: ls) i) as [t|] eqn:NE; [|apply nth_error_None in NE; simpl in NE; lia]. destruct (us_layer _ _ U _ _ _ _ E NE) as (u & -> & _). discriminate.
      + assert (i = 0) as -> by (destruct t; try lia; destruct ts; [lia|exfalso; eapply Q; reflexivity]). change (level b 0) with b. rewrite (us_rule _ _ U _ _ E Q). discriminate.
  Qed.
  (** The rules of the compiled grammar. *)
  Lemma next_fine : forall r ls i, lookup r g = Some (TStack ls) -> has_at (next_level r (length ls) i) = true \/ raw_name (next_level r (length ls) i).
  Proof.
    intros r ls i L. destruct (rule_writable _ _ L) as [[C R] _]. unfold next_level. destruct (Nat.eqb _ _); [|left; apply level_at]. right. split; auto. apply R. now left.
  Qed.
  Lemma layer_of : forall r i, i < layers g r -> 
    (exists t, lookup r g = Some t /\ (forall l ls, t <> TStack (l :: ls)) /\ i = 0 /\ lookup r G = Some t) \/
    (exists ls t u, lookup r g = Some (TStack ls) /\ nth_error ls i = Some t /\ layers g r = length ls /\ lookup (level r i) G = Some u /\ put (next_level r (length ls) i) t u /\ writable t).
  Proof.
    intros r i I. unfold layers in *. destruct (lookup r g) as [t|] eqn:E; [|lia]. destruct (is_nonempty_stack_dec t) as [(l & ls & ->)|Q].
    - right. destruct (nth_error (l :: ls) i) as [t|] eqn:NE; [|apply nth_error_None in NE; simpl in NE; lia]. destruct (us_layer _ _ U _ _ _ _ E NE) as (u & LU & P).
      exists (l :: ls), t, u. repeat split; auto. destruct (rule_writable _ _ E) as [_ WT]. inversion WT as [| | | | | | | |? F| | | | | |]; subst. rewrite Forall_forall in F. apply F. eapply nth_error_In; eauto.
    - left. exists t. repeat split; auto; [destruct t; try lia; destruct ts; [lia|exfalso; eapply Q; reflexivity]|]. apply (us_rule _ _ U _ _ E Q).
  Qed.
  Lemma G_okt : forall x t, lookup x G = Some t -> okt t.
  Proof.
    intros x t L. assert (I : In x (keys G)) by (apply In_keys; congruence). apply (ly_keys _ _ G_layered) in I as (b & i & A & I & ->).
    destruct (layer_of b i I) as [(t0 & L0 & Q & -> & L1)|(ls & t0 & u & L0 & NE & _ & LU & P & WT)].
    - change (level b 0) with b in L. assert (t = t0) by congruence. subst. apply writable_ok. eapply rule_writable; eauto.
    - assert (t = u) by congruence. subst. eapply put_ok; eauto. apply next_fine. auto.
  Qed.
  Lemma get_okt : forall x, okt (get x G).
  Proof. intros x. unfold get. destruct (lookup x G) eqn:E; [eapply G_okt; eauto|]. exact Logic.I. Qed.
  Let names := filter (fun k => negb (has_at k)) (sort_strings (keys G)).
  Lemma names_In : forall k, In k names <-> lookup k g <> None.
  Proof.
    intros k. unfold names. rewrite filter_In. split.
    - intros [I A]. apply (Permutation_in k (sort_perm _)) in I. apply In_keys in I. destruct (us_only _ _ U k I) as [|(r & ls & i & Lr & J & ->)]; auto. destruct i as [|i]; [lia|]. rewrite level_at in A. discriminate.
    - intros L. split; [|rewrite g_at_free; auto]. eapply Permutation_in; [apply Permutation_sym, sort_perm|]. apply (ly_keys _ _ G_layered). exists k, 0. split; [apply g_at_free; auto|]. split; auto.
      unfold layers. destruct (lookup k g) as [[]|]; try lia; [|congruence]. destruct ts; lia.
  Qed.
  Lemma names_nodup : NoDup names.
  Proof. unfold names. apply NoDup_filter. eapply Permutation_NoDup; [apply Permutation_sym, sort_perm|exact N]. Qed.
  Definition written : grammar := norm_rules (restacked G (layers g)).
  Lemma lookup_names : forall (f : string -> term) r, lookup r (map (fun k => (k, f k)) names) = match lookup r g with Some _ => Some (f r) | None => None end.
  Proof.
    intros f r. assert (H : forall l, lookup r (map (fun k => (k, f k)) l) = if existsb (String.eqb r) l then Some (f r) else None).
    { induction l as [|k l IH]; simpl; auto. destruct (String.eqb_spec r k) as [->|]; auto. }
    rewrite H. destruct (existsb (String.eqb r) names) eqn:E.
    - apply existsb_In in E. apply names_In in E. destruct (lookup r g); congruence.
    - destruct (lookup r g) eqn:L; auto. assert (I : In r names) by (apply names_In; congruence). apply existsb_In in I. congruence.
  Qed.
  Lemma keys_names : forall (f : string -> term), keys (map (fun k => (k, f k)) names) = names.
  Proof. intros f. unfold keys. rewrite map_map. apply map_id. Qed.
  Lemma written_value : utf8 (generated G) /\ read_grammar (generated G) = if quants_grammar_b (restacked G (layers g)) then Some written else None.
  Proof.
    unfold generated. rewrite (layered_node G (layers g) G_layered). apply flat_value.
    - unfold restacked. fold names. rewrite keys_names. apply names_nodup.
    - unfold restacked. fold names. rewrite Forall_map, Forall_forall. intros k I. cbn [fst snd]. apply names_In in I. destruct (lookup k g) as [t|] eqn:E; [|congruence]. split; [eapply rule_writable; eauto|].
      unfold restack. destruct (Nat.leb 2 (layers g k)); [|apply get_okt]. cbn [okt]. apply (all_Forall _ okt). rewrite Forall_map, Forall_forall. intros i _. apply get_okt.
  Qed.
  (** The quantifiers stay. *)
  Lemma layer_quants : forall r i, i < layers g r -> exists t, quants_b (get (level r i) G) = quants_b t /\
    ((exists t0, lookup r g = Some t0 /\ (forall l ls, t0 <> TStack (l :: ls)) /\ t = t0) \/ exists ls, lookup r g = Some (TStack ls) /\ layers g r = length ls /\ nth_error ls i = Some t).
  Proof.
    intros r i I. destruct (layer_of r i I) as [(t0 & L0 & Q & -> & L1)|(ls & t0 & u & L0 & NE & LL & LU & P & WT)].
    - exists t0. change (level r 0) with r. unfold get. rewrite L1. split; auto. left. eauto.
    - exists t0. unfold get. rewrite LU. split; [eapply put_quants; eauto|]. right. eauto.
  Qed.
  Lemma restack_quants : forall r t, lookup r g = Some t -> quants_b (restack G (layers g) r) = quants_b t.
  Proof.
    intros r t L. assert (P : 0 < layers g r) by (unfold layers; rewrite L; destruct t; try lia; destruct ts; lia). unfold restack. destruct (Nat.leb 2 (layers g r)) eqn:B.
    - apply Nat.leb_le in B. destruct (layer_quants r 0 P) as (_ & _ & [(t0 & L0 & Q & _)|(ls & L0 & LL & _)]).
      + exfalso. unfold layers in B. rewrite L0 in B. destruct t0; try lia. destruct ts; [lia|]. eapply Q. reflexivity.
      + assert (t = TStack ls) by congruence. subst t. cbn [quants_b]. rewrite LL. apply eq_true_iff_eq. rewrite !forallb_forall. split; intros H x I.
        * apply In_nth_error in I as (i & NE). assert (IL : i < layers g r) by (rewrite LL; apply nth_error_Some; congruence).
          destruct (layer_quants r i IL) as (t1 & E & [(t0 & L1 & Q & _)|(ls' & L1 & _ & NE')]); [exfalso; assert (t0 = TStack ls) by congruence; subst; destruct ls; [destruct i; discriminate|eapply Q; reflexivity]|].
          assert (ls' = ls) by congruence. subst. assert (t1 = x) by congruence. subst. rewrite <- E. apply H. apply (in_map (fun i => get (level r i) G)), in_seq. lia.
        * apply in_map_iff in I as (i & <- & I). apply in_seq in I. destruct (layer_quants r i) as (t1 & E & [(t0 & L1 & Q & _)|(ls' & L1 & _ & NE')]); [lia|..].
          -- exfalso. assert (t0 = TStack ls) by congruence. subst. destruct ls; [simpl in *; lia|eapply Q; reflexivity].
          -- assert (ls' = ls) by congruence. subst. rewrite E. apply H. eapply nth_error_In; eauto.
    - apply Nat.leb_gt in B. destruct (layer_quants r 0 P) as (t1 & E & [(t0 & L1 & Q & ->)|(ls & L1 & LL & NE)]); change (level r 0) with r in E; rewrite E.
      + congruence.
      + assert (t = TStack ls) by congruence. subst t. destruct ls as [|l [|l2 ls]]; simpl in LL; try lia. cbn in NE. injection NE as <-. cbn. now rewrite Bool.andb_true_r.
  Qed.
  Lemma restacked_quants : quants_grammar_b (restacked G (layers g)) = quants_grammar_b g.
  Proof.
    unfold quants_grammar_b, restacked. fold names. inversion W as [? NG _]; subst. apply eq_true_iff_eq. rewrite !forallb_forall. split; intros H [k v] I; cbn [snd].
    - pose proof (In_lookup _ _ _ NG I) as L. rewrite <- (restack_quants k v L). apply (H (k, restack G (layers g) k)). apply in_map_iff. exists k. split; auto. apply names_In. congruence.
    - apply in_map_iff in I as (k' & E & I). injection E as -> <-. apply names_In in I. destruct (lookup k g) as [t|] eqn:L; [|congruence]. rewrite (restack_quants k t L). apply (H (k, t)). apply lookup_In. auto.
  Qed.
  Lemma written_read : utf8 (generated G) /\ read_grammar (generated G) = if quants_grammar_b g then Some written else None.
  Proof. rewrite <- restacked_quants. apply written_value. Qed.
  Lemma lookup_written : forall r, lookup r written = match lookup r g with Some _ => Some (norm (restack G (layers g) r)) | None => None end.
  Proof. intros r. unfold written, restacked. fold names. rewrite lookup_norm, lookup_names. destruct (lookup r g); auto. Qed.
  Lemma written_nodup : NoDup (keys written).
  Proof. unfold written, restacked. fold names. rewrite keys_norm, keys_names. apply names_nodup. Qed.

  (** The same before nested grammars are sorted. *)
  Definition unsorted (k : string) : term := if Nat.leb 2 (layers g k) then norm (restack G (layers g) k) else get k G.
  Let g1 := map (fun k => (k, unsorted k)) names.
  Lemma few_writable : forall r, lookup r g <> None -> layers g r < 2 -> writable (get r G).
  Proof.
    intros r L I. assert (P : 0 < layers g r). { unfold layers. destruct (lookup r g) as [[]|]; try lia; [|congruence]. destruct ts; lia. }
    destruct (layer_of r 0 P) as [(t0 & L0 & Q & _ & L1)|(ls & t0 & u & L0 & NE & LL & LU & PU & WT)]; unfold get.
    - rewrite L1. eapply rule_writable; eauto.
    - change (level r 0) with r in LU. rewrite LU. assert (LE : length ls = 1) by lia. unfold next_level in PU. rewrite LE in PU. cbn [Nat.eqb] in PU. destruct (rule_writable _ _ L0) as [RN _].
      eapply put_writable; eauto; [|apply rule_name_at; auto]. destruct RN as [C R]. split; auto. apply R. now left.
  Qed.
  Lemma g1_written : same_map g1 written.
  Proof.
    constructor.
    - unfold g1. rewrite keys_names. apply names_nodup.
    - apply written_nodup.
    - apply clear_at_free. unfold g1. rewrite keys_names. intros k I. apply names_In in I. apply g_at_free. auto.
    - intros r. unfold g1. rewrite lookup_names, lookup_written. destruct (lookup r g); auto. discriminate.
    - intros r t. unfold g1. rewrite lookup_names, lookup_written. destruct (lookup r g) as [t0|] eqn:E; [|discriminate]. intros H. inversion H; subst. eexists. split; [reflexivity|].
      unfold unsorted, restack. destruct (Nat.leb 2 (layers g r)) eqn:B.
      + apply reordered_norm. cbn [okt]. apply (all_Forall _ okt). rewrite Forall_map, Forall_forall. intros i _. apply get_okt.
      + apply writable_reordered, few_writable; [congruence|]. apply Nat.leb_gt in B. lia.
  Qed.
  Lemma g1_unstacked : unstacked g1 G.
  Proof.
    constructor.
    - intros r t. unfold g1. rewrite lookup_names. destruct (lookup r g) as [t0|] eqn:E; [|discriminate]. intros H Q. injection H as H. unfold unsorted, restack in H. destruct (Nat.leb 2 (layers g r)) eqn:B.
      + exfalso. apply Nat.leb_le in B. cbn [norm] in H. destruct (layers g r); [lia|]. cbn [seq map] in H. eapply Q. symmetry. exact H.
      + subst. unfold get. assert (I : In r (keys G)).
        { eapply Permutation_in; [apply sort_perm|]. assert (J : In r names) by (apply names_In; congruence). apply filter_In in J. tauto. }
        apply In_keys in I. destruct (lookup r G); congruence.
    - intros r ls i t. unfold g1. rewrite lookup_names. destruct (lookup r g) as [t0|] eqn:E; [|discriminate]. intros H NE. injection H as H. unfold unsorted, restack in H. destruct (Nat.leb 2 (layers g r)) eqn:B.
      + cbn [norm] in H. rewrite map_map in H. injection H as <-. rewrite nth_error_map in NE. assert (LI : i < layers g r).
        { rewrite <- (seq_length (layers g r) 0). apply nth_error_Some. intros X. rewrite X in NE. discriminate. }
        rewrite (nth_error_nth' _ 0) in NE by (rewrite seq_length; auto). rewrite seq_nth in NE by auto. cbn in NE. injection NE as <-. rewrite map_length, seq_length.
        destruct (layer_of r i LI) as [(t1 & L0 & Q & -> & L1)|(ls & t1 & u & L0 & NE & LL & LU & PU & WT)].
        * exfalso. apply Nat.leb_le in B. unfold layers in B. rewrite L0 in B. destruct t1; try lia. destruct ts; [lia|]. eapply Q. reflexivity.
        * exists u. split; auto. rewrite LL. unfold get. rewrite LU. eapply put_norm; eauto. apply next_fine. auto.
      + exfalso. unfold get in H. destruct (lookup r G) as [t1|] eqn:L1; [|discriminate]. subst t1. apply NS in L1. subst. destruct i; discriminate.
    - intros x L. assert (I : In x (keys G)) by (apply In_keys; auto). apply (ly_keys _ _ G_layered) in I as (b & i & A & I & ->). destruct i as [|i].
      + left. change (level b 0) with b. unfold g1. rewrite lookup_names. unfold layers in I. destruct (lookup b g); [discriminate|lia].
      + right. exists b. unfold g1. rewrite lookup_names. assert (LB : lookup b g <> None) by (unfold layers in I; destruct (lookup b g); [discriminate|lia]). destruct (lookup b g); [|congruence].
        unfold unsorted, restack. assert (B : Nat.leb 2 (layers g b) = true) by (apply Nat.leb_le; lia). rewrite B. cbn [norm]. eexists. exists (S i). split; [reflexivity|]. rewrite !map_length, seq_length. split; auto. lia.
  Qed.
  Lemma g_same : same_map g g.
  Proof.
    assert (S1 : same_map g (norm_rules g)).
    { inversion W as [? NG F]; subst. constructor; auto.
      - rewrite keys_norm. auto.
      - apply clear_at_free. intros k I. unfold keys in I. apply in_map_iff in I as (kv & <- & I). rewrite Forall_forall in F. apply rule_name_at. apply (F _ I).
      - intros r L. rewrite lookup_norm, L. auto.
      - intros r t L. rewrite lookup_norm, L. eexists. split; [reflexivity|]. apply writable_reordered. eapply rule_writable; eauto. }
    eapply same_map_left; eauto.
  Qed.
  Lemma written_compiles : forall E ps, compile E g = COk ps ->
    exists ps', compile E written = COk ps' /\ forall c f r s, parse_rule c f ps' r s = parse_rule c f ps r s.
  Proof.
    intros E ps C. destruct (proj1 (stacks_are_sugar E g G g_same U N) _ C) as (ps2 & C2 & Q2).
    destruct (proj2 (stacks_are_sugar E g1 G (same_map_left _ _ g1_written) g1_unstacked N) _ C2) as (ps1 & C1 & Q1).
    destruct (compile_same E _ _ _ g1_written C1) as (ps' & C' & Q'). exists ps'. split; auto. intros. rewrite <- Q', Q1, Q2. auto.
  Qed.
  Lemma written_rule : forall r t, lookup r g = Some t -> (forall l ls, t <> TStack (l :: ls)) -> exists t', lookup r written = Some t' /\ reordered t t'.
  Proof.
    intros r t L Q. rewrite lookup_written, L. eexists. split; [reflexivity|]. assert (LR : layers g r = 1).
    { unfold layers. rewrite L. destruct t; auto. destruct ts; auto. exfalso. eapply Q. reflexivity. }
    unfold restack. rewrite LR. cbn [Nat.leb]. unfold get. rewrite (us_rule _ _ U _ _ L Q). apply writable_reordered. eapply rule_writable; eauto.
  Qed.
  Lemma written_stack : forall r ls l, lookup r g = Some (TStack (ls ++ [l])) -> ls <> [] -> ~ mentions "@" l -> lookup r written = Some (TStack (map uncut (ls ++ [l]))).
  Proof.
    intros r ls l L NE M. rewrite lookup_written, L. f_equal. assert (LR : layers g r = length (ls ++ [l])) by (unfold layers; rewrite L; destruct ls; auto).
    assert (B : Nat.leb 2 (layers g r) = true) by (rewrite LR, app_length; destruct ls; [congruence|]; apply Nat.leb_le; simpl; lia).
    unfold restack. rewrite B. cbn [norm]. f_equal. rewrite map_map. rewrite LR.
    apply nth_error_same. intros i. rewrite !nth_error_map. destruct (Nat.lt_ge_cases i (length (ls ++ [l]))) as [LI|GE].
    - rewrite (nth_error_nth' _ 0) by (rewrite seq_length; auto). rewrite seq_nth by auto. cbn [option_map Nat.add].
      assert (LI2 : i < layers g r) by lia. destruct (layer_of r i LI2) as [(t1 & L0 & Q & -> & L1)|(ls' & t1 & u & L0 & NE1 & LL & LU & PU & WT)].
      + exfalso. assert (t1 = TStack (ls ++ [l])) by congruence. subst. destruct ls; eapply Q; reflexivity.
      + assert (ls' = ls ++ [l]) by congruence. subst ls'. rewrite NE1. cbn [option_map]. f_equal. unfold get. rewrite LU. eapply put_norm_uncut; eauto.
        unfold next_level. destruct (Nat.eqb_spec (S i) (length (ls ++ [l]))) as [EL|]; [|left; apply level_at]. right.
        rewrite app_length in EL. cbn in EL. rewrite nth_error_app2 in NE1 by lia. replace (i - length ls) with 0 in NE1 by lia. injection NE1 as <-. auto.
    - assert (H1 : nth_error (seq 0 (length (ls ++ [l]))) i = None) by (apply nth_error_None; rewrite seq_length; auto). assert (H2 : nth_error (ls ++ [l]) i = None) by (apply nth_error_None; auto).
      rewrite H1, H2. auto.
  Qed.
  Lemma written_only : forall r, lookup r g = None -> lookup r written = None.
  Proof. intros r L. rewrite lookup_written, L. auto. Qed.
End Written.
