(** Printed ASTs can be read back. *)
From Coq Require Import DecimalString.
From Coq Require DecimalNat.
From Verif Require Import Base Scanner Syntax Resolve Ast AstSpec AstProofs Codegen CodegenProofs Gotree GotreeProofs Treeview TreeviewProofs NodeString NodeStringSpec.
Local Open Scope list_scope.

(** * Without line breaks and indentation *)

Definition sp : ascii := " "%char.
Fixpoint squash (a : bool) (s : bytes) : bytes :=
  match s with
  | [] => []
  | c :: s' => if Ascii.eqb c nl then squash true s' else if (a && Ascii.eqb c sp)%bool then squash true s' else c :: squash false s'
  end.
(** Whether what comes next stands at the beginning of a line. *)
Fixpoint state (a : bool) (s : bytes) : bool :=
  match s with
  | [] => a
  | c :: s' => if Ascii.eqb c nl then state true s' else if (a && Ascii.eqb c sp)%bool then state true s' else state false s'
  end.

Lemma squash_app : forall x a y, squash a (x ++ y) = squash a x ++ squash (state a x) y.
Proof.
  induction x as [|c x IH]; intros a y; cbn [app squash state]; auto.
  destruct (Ascii.eqb c nl); auto. destruct (a && Ascii.eqb c sp)%bool; auto. rewrite IH. reflexivity.
Qed.
Lemma state_app : forall x a y, state a (x ++ y) = state (state a x) y.
Proof.
  induction x as [|c x IH]; intros a y; cbn [app state]; auto.
  destruct (Ascii.eqb c nl); auto. destruct (a && Ascii.eqb c sp)%bool; auto.
Qed.

Definition spaces (pre : bytes) : Prop := forall c, In c pre -> c = sp.
Lemma squash_spaces : forall pre, spaces pre -> squash true pre = [] /\ state true pre = true.
Proof.
  induction pre as [|c pre IH]; intros H; auto. assert (c = sp) by (apply H; left; auto). subst c. cbn [squash state].
  change (Ascii.eqb sp nl) with false. rewrite Ascii.eqb_refl. cbn [andb]. apply IH. intros d I. apply H. right. auto.
Qed.
Lemma squash_indent : forall pre, spaces pre -> forall s a, squash a (indent pre s) = squash a s /\ state a (indent pre s) = state a s.
Proof.
  intros pre H. destruct (squash_spaces pre H) as [S1 S2]. induction s as [|c s IH]; intros a; cbn [indent]; auto.
  destruct (Ascii.eqb c nl) eqn:E.
  - apply Ascii.eqb_eq in E. subst c. cbn [squash state]. rewrite Ascii.eqb_refl. rewrite squash_app, state_app, S1, S2. apply IH.
  - cbn [squash state]. rewrite E. destruct (a && Ascii.eqb c sp)%bool; [apply IH|]. destruct (IH false) as [-> ->]. auto.
Qed.
Lemma squash_line : forall x, ~ In nl x -> squash false x = x /\ state false x = false.
Proof.
  induction x as [|c x IH]; intros N; auto. cbn [squash state]. destruct (Ascii.eqb c nl) eqn:E.
  - apply Ascii.eqb_eq in E. destruct N. left. auto.
  - cbn [andb]. destruct IH as [-> ->]; [intros I; apply N; right; auto|auto].
Qed.

(** Texts that start with something to see. *)
Definition starts (x : bytes) : Prop := exists c r, x = c :: r /\ c <> nl /\ c <> sp.
Lemma starts_squash : forall x a y, starts x -> squash a (x ++ y) = squash false (x ++ y) /\ state a (x ++ y) = state false (x ++ y).
Proof.
  intros x a y (c & r & -> & N1 & N2). cbn [app squash state].
  destruct (Ascii.eqb c nl) eqn:E1; [apply Ascii.eqb_eq in E1; congruence|].
  destruct (Ascii.eqb c sp) eqn:E2; [apply Ascii.eqb_eq in E2; congruence|]. destruct a; auto.
Qed.
Definition fine (x : bytes) : Prop := starts x /\ state false x = false.
Lemma fine_squash : forall x a y, fine x -> squash a (x ++ y) = squash false x ++ squash false y /\ state a (x ++ y) = state false y.
Proof.
  intros x a y [S F]. destruct (starts_squash x a y S) as [-> ->]. rewrite squash_app, state_app, F. auto.
Qed.
Lemma starts_indent : forall pre x, starts x -> starts (indent pre x).
Proof.
  intros pre x (c & r & -> & N1 & N2). exists c, (indent pre r). split; [|auto]. cbn [indent].
  destruct (Ascii.eqb c nl) eqn:E1; [apply Ascii.eqb_eq in E1; congruence|auto].
Qed.
Lemma fine_indent : forall pre x, spaces pre -> fine x -> fine (indent pre x) /\ squash false (indent pre x) = squash false x.
Proof.
  intros pre x SP [S F]. destruct (squash_indent pre SP x false) as [E1 E2]. split; [split; [apply starts_indent; auto|congruence]|auto].
Qed.

(** * The compact form *)

Definition name_text (k : string) : bytes := if String.eqb k "" then bs "''" else bs k.
Inductive body : list bytes -> bytes -> Prop :=
| bd_nil : body [] []
| bd_loose : forall x xs, body (x :: xs) (x ++ flat_map (fun y => bs ", " ++ y) xs)
| bd_tight : forall x y xs, body (x :: y :: xs) (x ++ flat_map (fun y => bs "," ++ y) (y :: xs) ++ bs ",").

Lemma some_inj : forall A (x y : A), Some x = Some y -> y = x.
Proof. congruence. Qed.

Section Read.
  Variable quote : bytes -> bytes.
  Hypothesis Q : quotes quote.

  Inductive compact : anode -> bytes -> Prop :=
  | cp_leaf : forall s x, leaf_string quote s = Some x -> compact (ALeaf s) x
  | cp_extra : forall d, compact (AExtra d) (data_string d)
  | cp_branch : forall b b1 xs x, Permutation b b1 -> Forall2 compact_entry b1 xs -> body xs x -> compact (ABranch b) (bs "(" ++ x ++ bs ")")
  with compact_entry : string * children anode -> bytes -> Prop :=
  | ce_one : forall k n x, compact n x -> compact_entry (k, One n) (name_text k ++ bs ": " ++ x)
  | ce_many : forall k ns xs x, Forall2 compact ns xs -> body xs x -> compact_entry (k, Many ns) (name_text k ++ bs ": " ++ bs "[" ++ x ++ bs "]").

  Lemma data_string_text : forall d, data_text d (data_string d).
  Proof.
    intros [r|c|s|z]; cbn [data_string]; try constructor. unfold decz. destruct (z <? 0)%Z eqn:E.
    - apply Z.ltb_lt in E. destruct (Z.to_nat (- z)) as [|n] eqn:E2; [lia|]. replace z with (- Z.of_nat (S n))%Z by lia. apply (dt_negative n).
    - apply Z.ltb_ge in E. replace z with (Z.of_nat (Z.to_nat z)) at 1 by lia. apply dt_int.
  Qed.
  Lemma data_text_fun : forall d x, data_text d x -> x = data_string d.
  Proof.
    intros d x H. destruct H; cbn [data_string]; auto; unfold decz.
    - destruct (Z.of_nat n <? 0)%Z eqn:E; [apply Z.ltb_lt in E; lia|]. rewrite Nat2Z.id. auto.
    - destruct (- Z.of_nat (S n) <? 0)%Z eqn:E; [|apply Z.ltb_ge in E; lia]. replace (Z.to_nat (- - Z.of_nat (S n))) with (S n) by lia. auto.
  Qed.

  (** Decimal numbers. *)
  Lemma dec_head : forall n, exists c r, bs (dec n) = c :: r /\ is_digit c = true /\ forallb is_digit r = true.
  Proof.
    intros n. unfold dec. pose proof (dec_digits (Nat.to_uint n)) as D. destruct (bs (NilEmpty.string_of_uint (Nat.to_uint n))) as [|c r] eqn:E.
    - exfalso. pose proof (DecimalNat.Unsigned.to_of (Nat.to_uint n)) as N. rewrite DecimalNat.Unsigned.of_to in N. destruct (Nat.to_uint n); discriminate.
    - apply andb_prop in D as [D1 D2]. eauto.
  Qed.
  Lemma decz_chars : forall z, exists c r, decz z = c :: r /\ (is_digit c = true \/ c = "-"%char) /\ forallb is_digit r = true.
  Proof.
    intros z. unfold decz. destruct (z <? 0)%Z.
    - exists "-"%char, (bs (dec (Z.to_nat (- z)))). split; auto. split; auto. apply dec_digits.
    - destruct (dec_head (Z.to_nat z)) as (c & r & E & D1 & D2). exists c, r. auto.
  Qed.
  Lemma dec_inj : forall n m, bs (dec n) = bs (dec m) -> n = m.
  Proof.
    intros n m E. assert (V := dec_value (Nat.to_uint n) 0). assert (V' := dec_value (Nat.to_uint m) 0).
    pose proof (DecimalNat.Unsigned.of_to n) as U. pose proof (DecimalNat.Unsigned.of_to m) as U'. unfold Nat.of_uint in U, U'.
    rewrite U in V. rewrite U' in V'. unfold dec in E. rewrite E in V. rewrite V in V'. lia.
  Qed.
  Lemma decz_inj : forall z w, decz z = decz w -> z = w.
  Proof.
    intros z w E. unfold decz in E. destruct (z <? 0)%Z eqn:Z1; destruct (w <? 0)%Z eqn:W1.
    - injection E as E. apply dec_inj in E. apply Z.ltb_lt in Z1, W1. lia.
    - destruct (dec_head (Z.to_nat w)) as (c & r & E' & D & _). rewrite E' in E. injection E as <- _. discriminate.
    - destruct (dec_head (Z.to_nat z)) as (c & r & E' & D & _). rewrite E' in E. injection E as -> _. discriminate.
    - apply dec_inj in E. apply Z.ltb_ge in Z1, W1. lia.
  Qed.
  Lemma digit_not : forall c d, is_digit c = true -> is_digit d = false -> c <> d.
  Proof. intros c d A B ->. congruence. Qed.
  Lemma decz_no : forall z d, is_digit d = false -> d <> "-"%char -> ~ In d (decz z).
  Proof.
    intros z d D N I. destruct (decz_chars z) as (c & r & E & H & F). rewrite E in I. destruct I as [->|I].
    - destruct H; congruence.
    - rewrite forallb_forall in F. apply F in I. congruence.
  Qed.

  Lemma special_odd : forall s c, existsb special_char s = false -> In c s -> special_char c = false.
  Proof.
    intros s c H I. destruct (special_char c) eqn:E; auto. assert (existsb special_char s = true) by (apply existsb_exists; eauto). congruence.
  Qed.
  Lemma leaf_line : forall s x, leaf_string quote s = Some x -> ~ In nl x /\ starts x.
  Proof.
    intros s x H. unfold leaf_string in H. destruct (sstring s) as [t|]; [|discriminate]. injection H as <-. split.
    - intros I. apply in_app_or in I. destruct I as [I|I]; [revert I; apply decz_no; [reflexivity|discriminate]|].
      destruct I as [I|[I|[I|I]]]; [discriminate..|].
      destruct (existsb special_char t) eqn:E1; [apply (proj1 (proj2 Q) t); auto|].
      destruct (existsb (Ascii.eqb """") t).
      + destruct I as [I|I]; [discriminate|]. apply in_app_or in I. destruct I as [I|I]; [apply (special_odd _ _ E1) in I; discriminate|cbn in I; destruct I as [I|I]; discriminate || contradiction].
      + apply (special_odd _ _ E1) in I. discriminate.
    - destruct (decz_chars (offset s)) as (c & r & E & H & _). rewrite E. exists c. eexists. split; [reflexivity|].
      destruct H as [H| ->]; split; try discriminate; apply digit_not; auto.
  Qed.

  Lemma many_rest : forall complex xs b, Forall fine xs -> many_loop complex false (map Some xs) = Some b ->
    squash false b = flat_map (fun y => (if complex then bs "," else bs ", ") ++ y) (map (squash false) xs) /\ state false b = false.
  Proof.
    intros complex. induction xs as [|x xs IH]; intros b F H; cbn [map many_loop] in H; [apply some_inj in H; subst; auto|].
    inversion F as [|? ? F1 F2]; subst. destruct (many_loop complex false (map Some xs)) as [rest|]; [|discriminate]. apply some_inj in H; subst b.
    destruct (IH rest F2 eq_refl) as [E1 E2]. cbn [map flat_map]. destruct complex.
    - assert (SP : spaces (bs "  ")) by (intros c I; cbn in I; destruct I as [<-|[<-|[]]]; auto).
      destruct (fine_indent _ x SP F1) as [FI EI]. change (bs "," ++ [nl] ++ bs "  ") with (bs "," ++ (nl :: bs "  ")). rewrite <- !app_assoc.
      rewrite squash_app, state_app. change (state false (bs ",")) with false. change (squash false (bs ",")) with (bs ",").
      rewrite squash_app, state_app. change (state false (nl :: bs "  ")) with true. change (squash false (nl :: bs "  ")) with (@nil ascii).
      destruct (fine_squash _ true rest FI) as [-> ->]. rewrite EI, E1, E2. auto.
    - assert (SP : spaces []) by (intros c []).
      destruct (fine_indent _ x SP F1) as [FI EI].
      rewrite squash_app, state_app. change (state false (bs ", ")) with false. change (squash false (bs ", ")) with (bs ", ").
      destruct (fine_squash _ false rest FI) as [-> ->]. rewrite EI, E1, E2. auto.
  Qed.

  Lemma open_wide : forall c r, c <> nl -> c <> sp -> squash false (([c] ++ ([nl] ++ bs "  ")) ++ r) = c :: squash true r /\ state false (([c] ++ ([nl] ++ bs "  ")) ++ r) = state true r.
  Proof.
    intros c r N1 N2. change (([c] ++ ([nl] ++ bs "  ")) ++ r) with (c :: nl :: sp :: sp :: r). cbn [squash state].
    destruct (Ascii.eqb c nl) eqn:E; [apply Ascii.eqb_eq in E; congruence|]. auto.
  Qed.
  Lemma many_fine : forall narrow xs x, Forall fine xs -> many_string narrow (map Some xs) = Some x ->
    fine x /\ exists b, body (map (squash false) xs) b /\ squash false x = bs "[" ++ b ++ bs "]".
  Proof.
    intros narrow xs x F H. unfold many_string in H. set (complex := (Nat.ltb 1 (length (map Some xs)) && negb (forallb (fun b => b) narrow))%bool) in *.
    destruct (many_loop complex true (map Some xs)) as [b|] eqn:L; [|discriminate]. apply some_inj in H; subst x.
    split; [split; [exists "["%char; eexists; split; [reflexivity|split; discriminate]|]|].
    - destruct xs as [|y xs]; [cbn in L; apply some_inj in L; subst b; destruct complex; reflexivity|].
      cbn [map many_loop] in L. destruct (many_loop complex false (map Some xs)) as [rest|] eqn:R; [|discriminate]. apply some_inj in L; subst b.
      inversion F as [|? ? F1 F2]; subst. destruct (many_rest _ _ _ F2 R) as [E1 E2]. cbn [app].
      destruct complex.
      + assert (SP : spaces (bs "  ")) by (intros c I; cbn in I; destruct I as [<-|[<-|[]]]; auto).
        destruct (fine_indent _ y SP F1) as [FI EI].
        etransitivity; [apply (proj2 (open_wide "[" _ ltac:(discriminate) ltac:(discriminate)))|]. rewrite <- app_assoc.
        rewrite (proj2 (fine_squash _ true _ FI)). rewrite state_app, E2. reflexivity.
      + assert (SP : spaces []) by (intros c []). destruct (fine_indent _ y SP F1) as [FI EI].
        change (bs "[" ++ [] ++ (indent [] y ++ rest) ++ [] ++ bs "]") with (bs "[" ++ (indent [] y ++ rest) ++ bs "]").
        rewrite state_app. change (state false (bs "[")) with false. rewrite <- app_assoc.
        rewrite (proj2 (fine_squash _ false _ FI)). rewrite state_app, E2. reflexivity.
    - destruct xs as [|y xs].
      + cbn in L. apply some_inj in L; subst b. exists []. split; [constructor|]. unfold complex. reflexivity.
      + cbn [map many_loop] in L. destruct (many_loop complex false (map Some xs)) as [rest|] eqn:R; [|discriminate]. apply some_inj in L; subst b.
        inversion F as [|? ? F1 F2]; subst. destruct (many_rest _ _ _ F2 R) as [E1 E2]. cbn [app map].
        destruct complex eqn:CX.
        * assert (SP : spaces (bs "  ")) by (intros c I; cbn in I; destruct I as [<-|[<-|[]]]; auto).
          destruct (fine_indent _ y SP F1) as [FI EI].
          destruct xs as [|z xs]; [cbn in CX; discriminate|].
          eexists. split; [apply bd_tight|].
          etransitivity; [apply (proj1 (open_wide "[" _ ltac:(discriminate) ltac:(discriminate)))|]. rewrite <- app_assoc. rewrite (proj1 (fine_squash _ true _ FI)), EI. rewrite squash_app, E2, E1.
          change (squash false ((bs "," ++ [nl]) ++ bs "]")) with (bs "," ++ bs "]"). cbn [map]. rewrite <- !app_assoc. reflexivity.
        * assert (SP : spaces []) by (intros c []). destruct (fine_indent _ y SP F1) as [FI EI].
          eexists. split; [apply bd_loose|].
          change (bs "[" ++ [] ++ (indent [] y ++ rest) ++ [] ++ bs "]") with (bs "[" ++ (indent [] y ++ rest) ++ bs "]").
          rewrite squash_app. change (state false (bs "[")) with false. change (squash false (bs "[")) with (bs "[").
          rewrite <- app_assoc. rewrite (proj1 (fine_squash _ false _ FI)), EI. rewrite squash_app, E2, E1.
          change (squash false (bs "]")) with (bs "]"). rewrite <- !app_assoc. reflexivity.
  Qed.

  Lemma name_line : forall k, clear_name k -> ~ In nl (name_text k) /\ starts (name_text k).
  Proof.
    intros k C. unfold name_text. destruct (String.eqb_spec k "") as [->|N].
    - split; [intros [I|[I|[]]]; discriminate|]. exists "'"%char, (bs "'"). split; [reflexivity|split; discriminate].
    - split; [intros I; apply (C _ I); left; auto|]. destruct (bs k) as [|c r] eqn:E; [destruct k; [congruence|discriminate]|].
      exists c, r. split; auto. split; intros ->; (eapply (C _); [rewrite E; left; reflexivity|]); cbn; auto.
  Qed.

  Definition kids_string (c : children anode) : option bytes :=
    match c with
    | One m => node_string quote m
    | Many ns => many_string (map node_narrow ns) (map (node_string quote) ns)
    end.
  Lemma node_string_branch : forall b, node_string quote (ABranch b) = branch_string (map (fun kc : string * children anode => (fst kc, kids_string (snd kc))) b).
  Proof. intros b. cbn [node_string]. f_equal. apply map_ext. intros [k [m|ns]]; reflexivity. Qed.
  Lemma many_all : forall complex cs first x, many_loop complex first cs = Some x -> exists xs, cs = map Some xs.
  Proof.
    induction cs as [|[c|] cs IH]; intros first x H; cbn [many_loop] in H; [exists []; auto| |discriminate].
    destruct (many_loop complex false cs) as [rest|] eqn:E; [|discriminate]. apply IH in E as [xs ->]. exists (c :: xs). auto.
  Qed.

  Definition good (e : string * children anode) : Prop := forall x, kids_string (snd e) = Some x ->
    fine x /\ compact_entry e (name_text (fst e) ++ bs ": " ++ squash false x).
  Lemma item_fine : forall pre k x, spaces pre -> clear_name k -> fine x ->
    fine (name_text k ++ bs ": " ++ indent pre x) /\ squash false (name_text k ++ bs ": " ++ indent pre x) = name_text k ++ bs ": " ++ squash false x.
  Proof.
    intros pre k x SP C F. destruct (name_line k C) as [N (c & r & E & N1 & N2)]. destruct (fine_indent _ x SP F) as [FI EI].
    destruct (squash_line _ N) as [S1 S2]. split; [split|].
    - rewrite E. exists c. eexists. split; [reflexivity|auto].
    - rewrite state_app, S2, state_app. change (state false (bs ": ")) with false. apply FI.
    - rewrite squash_app, S1, S2, squash_app. change (state false (bs ": ")) with false. rewrite EI. reflexivity.
  Qed.
  Lemma branch_rest : forall pre strs, spaces pre -> forall es rest,
    (forall e, In e es -> lookup (fst e) strs = Some (kids_string (snd e)) /\ clear_name (fst e) /\ good e) ->
    branch_loop pre false (map fst es) strs = Some rest ->
    exists xs, Forall2 compact_entry es xs /\ squash false rest = flat_map (fun y => bs "," ++ y) xs /\ state false rest = false.
  Proof.
    intros pre strs SP. induction es as [|e es IH]; intros rest H L; cbn [map branch_loop] in L.
    - apply some_inj in L. subst rest. exists []. repeat split. constructor.
    - destruct (H e (or_introl eq_refl)) as (LK & CN & G). rewrite LK in L. destruct (kids_string (snd e)) as [g|] eqn:K; [|discriminate].
      destruct (branch_loop pre false (map fst es) strs) as [rest'|] eqn:R; [|discriminate]. apply some_inj in L. subst rest.
      destruct (IH rest') as (xs & F2 & S1 & S2); auto. { intros e' I. apply H. right. auto. }
      destruct (G g K) as [FG CE]. exists ((name_text (fst e) ++ bs ": " ++ squash false g) :: xs). split; [constructor; auto|].
      destruct (item_fine pre (fst e) g SP CN FG) as [FI SI]. fold (name_text (fst e)).
      assert (A : (bs "," ++ [nl] ++ bs "  ") ++ name_text (fst e) ++ bs ": " ++ indent pre g ++ rest' =
                  ([","%char] ++ [nl] ++ bs "  ") ++ (name_text (fst e) ++ bs ": " ++ indent pre g) ++ rest') by (rewrite <- !app_assoc; reflexivity).
      match type of A with _ = ?r => enough (X : squash false r = flat_map (fun y => bs "," ++ y) ((name_text (fst e) ++ bs ": " ++ squash false g) :: xs) /\ state false r = false) by (rewrite <- A in X; exact X) end.
      destruct (open_wide ","%char ((name_text (fst e) ++ bs ": " ++ indent pre g) ++ rest')) as [O1 O2]; [discriminate..|].
      rewrite O1, O2. destruct (fine_squash _ true rest' FI) as [-> ->]. rewrite SI, S1, S2. split; auto.
  Qed.
  Lemma sorted_perm : forall A (l : list (string * A)), NoDup (keys l) -> Permutation l (sorted l).
  Proof.
    intros A l N. apply NoDup_Permutation.
    - eapply NoDup_map_inv. exact N.
    - eapply NoDup_map_inv. apply (sorted_nodup _ l N).
    - intros [k v]. split; intros I.
      + apply lookup_In. rewrite sorted_lookup by auto. apply In_lookup; auto.
      + apply lookup_In. apply sorted_In. auto.
  Qed.
  Lemma spaces2 : spaces (bs "  ").
  Proof. intros c [<-|[<-|[]]]; auto. Qed.
  Lemma spaces0 : spaces [].
  Proof. intros c []. Qed.

  Lemma branch_fine : forall b x, NoDup (keys b) -> (forall e, In e b -> clear_name (fst e) /\ good e) ->
    node_string quote (ABranch b) = Some x -> compact (ABranch b) (squash false x) /\ fine x.
  Proof.
    intros b x ND H E. rewrite node_string_branch in E. unfold branch_string in E.
    set (strs := map (fun kc : string * children anode => (fst kc, kids_string (snd kc))) b) in *.
    assert (K : keys strs = keys b) by (unfold strs, keys; rewrite map_map; reflexivity). rewrite K in E.
    assert (LN : length strs = length b) by (unfold strs; apply map_length). rewrite LN in E.
    pose proof (sorted_perm _ b ND) as P. pose proof (keys_sorted _ b) as KS. unfold keys at 1 in KS. rewrite <- KS in E.
    assert (H' : forall e, In e (sorted b) -> lookup (fst e) strs = Some (kids_string (snd e)) /\ clear_name (fst e) /\ good e).
    { intros e I. split; [|apply H; eapply Permutation_in; [apply Permutation_sym, P|auto]]. destruct e as [k c]. apply sorted_In in I.
      unfold strs. rewrite (lookup_map _ _ (fun _ => kids_string)). cbn [fst snd]. rewrite I. reflexivity. }
    rewrite (Permutation_length P) in E. revert P H' E. generalize (sorted b) as es. intros es P H' E.
    destruct es as [|e es].
    - cbn in E. apply some_inj in E. subst x. split; [|split; [exists "("%char; eexists; split; [reflexivity|split; discriminate]|reflexivity]].
      apply (cp_branch b [] [] [] P); constructor.
    - destruct (H' e (or_introl eq_refl)) as (LK & CN & G). cbn [map branch_loop] in E. rewrite LK in E.
      destruct (kids_string (snd e)) as [g|] eqn:KG; [|discriminate]. destruct (G g KG) as [FG CE].
      set (pre := if Nat.ltb 1 (length (e :: es)) then bs "  " else []) in *.
      assert (SP : spaces pre) by (unfold pre; destruct (Nat.ltb 1 (length (e :: es))); [apply spaces2|apply spaces0]).
      destruct (branch_loop pre false (map fst es) strs) as [rest|] eqn:R; [|discriminate]. apply some_inj in E. subst x.
      destruct (branch_rest pre strs SP es rest) as (xs & F2 & S1 & S2); auto. { intros e' I. apply H'. right. auto. }
      destruct (item_fine pre (fst e) g SP CN FG) as [FI SI]. fold (name_text (fst e)). cbn [app].
      set (y := name_text (fst e) ++ bs ": " ++ squash false g) in *.
      assert (F3 : Forall2 compact_entry (e :: es) (y :: xs)) by (constructor; auto).
      destruct es as [|e2 es].
      + inversion F2; subst xs. cbn in R. apply some_inj in R. subst rest. change (Nat.ltb 1 (length [e])) with false in *. cbv iota in *. subst pre.
        assert (A : bs "(" ++ (name_text (fst e) ++ bs ": " ++ indent [] g ++ []) ++ bs ")" = bs "(" ++ (name_text (fst e) ++ bs ": " ++ indent [] g) ++ bs ")").
        { rewrite app_nil_r. reflexivity. }
        assert (SQ : squash false (bs "(" ++ (name_text (fst e) ++ bs ": " ++ indent [] g) ++ bs ")") = bs "(" ++ y ++ bs ")").
        { rewrite squash_app. change (state false (bs "(")) with false. rewrite (proj1 (fine_squash _ false _ FI)), SI. reflexivity. }
        assert (ST : state false (bs "(" ++ (name_text (fst e) ++ bs ": " ++ indent [] g) ++ bs ")") = false).
        { rewrite state_app. change (state false (bs "(")) with false. rewrite (proj2 (fine_squash _ false _ FI)). reflexivity. }
        change (bs "(" ++ [] ++ (name_text (fst e) ++ bs ": " ++ indent [] g ++ []) ++ [] ++ bs ")") with (bs "(" ++ (name_text (fst e) ++ bs ": " ++ indent [] g ++ []) ++ bs ")").
        split; [|split].
        * eapply eq_ind_r with (P := compact _); [eapply (cp_branch b _ _ _ P F3); apply bd_loose|].
          etransitivity; [apply f_equal; exact A|]. rewrite SQ. cbn [flat_map]. rewrite app_nil_r. reflexivity.
        * exists "("%char. eexists. split; [reflexivity|split; discriminate].
        * etransitivity; [|exact ST]. f_equal. exact A.
      + change (Nat.ltb 1 (length (e :: e2 :: es))) with true in *. cbv iota in *. subst pre.
        inversion F2 as [|? y2 ? xs2 F2a F2b]; subst xs.
        set (item := name_text (fst e) ++ bs ": " ++ indent (bs "  ") g) in *.
        assert (A : bs "(" ++ ([nl] ++ bs "  ") ++ (name_text (fst e) ++ bs ": " ++ indent (bs "  ") g ++ rest) ++ (bs "," ++ [nl]) ++ bs ")" =
                    (["("%char] ++ [nl] ++ bs "  ") ++ item ++ rest ++ (bs "," ++ [nl]) ++ bs ")").
        { unfold item. rewrite <- !app_assoc. reflexivity. }
        destruct (open_wide "("%char (item ++ rest ++ (bs "," ++ [nl]) ++ bs ")")) as [O1 O2]; [discriminate..|].
        split; [|split].
        * eapply eq_ind_r with (P := compact _); [eapply (cp_branch b _ _ _ P F3); apply bd_tight|].
          etransitivity; [apply f_equal, A|]. rewrite O1. rewrite (proj1 (fine_squash _ true _ FI)), SI. rewrite squash_app, S1, S2.
          change (squash false ((bs "," ++ [nl]) ++ bs ")")) with (bs "," ++ bs ")"). cbn [map]. rewrite <- !app_assoc. reflexivity.
        * exists "("%char. eexists. split; [reflexivity|split; discriminate].
        * etransitivity; [apply f_equal, A|]. rewrite O2. rewrite (proj2 (fine_squash _ true _ FI)). rewrite state_app, S2. reflexivity.
  Qed.

  Lemma data_fine : forall d, clear_data d -> ~ In nl (data_string d) /\ starts (data_string d).
  Proof.
    intros d C. destruct (C _ (data_string_text d)) as [N H]. split; [intros I; apply (H _ I); left; auto|].
    destruct (data_string d) as [|c r] eqn:E; [congruence|]. exists c, r. split; auto. split; intros ->; eapply (H _ (or_introl eq_refl)); cbn; auto.
  Qed.
  Lemma compact_string : forall n, clear n -> forall x, node_string quote n = Some x -> compact n (squash false x) /\ fine x.
  Proof.
    intros n. apply (anode_ind' (fun n => clear n -> forall x, node_string quote n = Some x -> compact n (squash false x) /\ fine x)
                                (fun c => clear_kids c -> forall k, good (k, c))); clear n.
    - intros s _ x E. cbn [node_string] in E. destruct (leaf_line _ _ E) as [N ST]. destruct (squash_line x N) as [S1 S2]. rewrite S1. split; [constructor; auto|split; auto].
    - intros d C x E. inversion C; subst. cbn [node_string] in E. apply some_inj in E. subst x. destruct (data_fine d) as [N ST]; auto.
      destruct (squash_line _ N) as [S1 S2]. rewrite S1. split; [constructor|split; auto].
    - intros b F C x E. inversion C as [| |? ND CB]; subst. apply branch_fine; auto. intros [k c] I. destruct (CB k c I) as [CN CK].
      split; auto. rewrite Forall_forall in F. apply (F _ I CK).
    - intros n IH C k x E. inversion C; subst. destruct (IH H0 x E) as [CM FX]. split; auto. constructor. auto.
    - intros ns F C k x E. inversion C as [|? H]; subst. cbn [snd kids_string] in E.
      assert (X : exists xs, map (node_string quote) ns = map Some xs).
      { unfold many_string in E. match type of E with match many_loop ?c true ?l with _ => _ end = _ => destruct (many_loop c true l) eqn:L; [|discriminate] end. eapply many_all; eauto. }
      destruct X as [xs X]. rewrite X in E.
      assert (G : Forall2 compact ns (map (squash false) xs) /\ Forall fine xs).
      { clear E. revert xs X F H. clear C. induction ns as [|n ns IH]; intros [|y xs] X F H; cbn [map] in X; try discriminate; [split; constructor|].
        injection X as X1 X2. inversion F; subst. destruct (IH xs X2) as [A B]; auto. { intros m I. apply H. right. auto. }
        destruct (H2 (H n (or_introl eq_refl)) y X1) as [D1 D2]. split; [cbn [map]|]; constructor; auto. }
      destruct G as [G1 G2]. destruct (many_fine _ _ _ G2 E) as (FX & b & B & SQ). split; auto. cbn [fst snd]. rewrite SQ. econstructor; eauto.
  Qed.

  (** ** Reading the compact form *)

  Definition halts (r : bytes) : Prop := match r with [] => True | c :: _ => In c (bs ",)]") end.
  Lemma upto : forall (p : ascii -> bool) a b r r', forallb p a = true -> forallb p b = true ->
    (match r with [] => True | c :: _ => p c = false end) -> (match r' with [] => True | c :: _ => p c = false end) -> a ++ r = b ++ r' -> a = b /\ r = r'.
  Proof.
    intros p. induction a as [|c a IH]; intros [|d b] r r' A B R R' E; cbn [app forallb] in *; auto.
    - apply andb_prop in B as [B1 B2]. subst r. congruence.
    - apply andb_prop in A as [A1 A2]. subst r'. congruence.
    - apply andb_prop in A as [A1 A2]. apply andb_prop in B as [B1 B2]. injection E as -> E. destruct (IH b r r') as [-> ->]; auto.
  Qed.
  Definition none_of (l : list ascii) (c : ascii) : bool := negb (existsb (Ascii.eqb c) l).
  Lemma none_of_spec : forall l x, (forall c, In c x -> ~ In c l) -> forallb (none_of l) x = true.
  Proof.
    intros l x H. apply forallb_forall. intros c I. unfold none_of. apply negb_true_iff. destruct (existsb (Ascii.eqb c) l) eqn:E; auto.
    apply existsb_exists in E as (d & I2 & E). apply Ascii.eqb_eq in E. subst d. destruct (H c I I2).
  Qed.
  Lemma none_of_In : forall l c, In c l -> none_of l c = false.
  Proof. intros l c I. unfold none_of. apply negb_false_iff. apply existsb_exists. exists c. split; auto. apply Ascii.eqb_refl. Qed.
  Lemma decz_none : forall z l, (forall c, In c l -> is_digit c = false /\ c <> "-"%char) -> forallb (none_of l) (decz z) = true.
  Proof. intros z l H. apply none_of_spec. intros c I J. destruct (H c J). eapply decz_no; eauto. Qed.

  Lemma raw_text : forall t t' r r', existsb special_char t = false -> existsb special_char t' = false -> halts r -> halts r' -> t ++ r = t' ++ r' -> t = t' /\ r = r'.
  Proof.
    intros t t' r r' S S' H H' E. apply (upto (fun c => negb (special_char c))) in E; auto.
    - apply forallb_forall. intros c I. rewrite (special_odd _ _ S I). auto.
    - apply forallb_forall. intros c I. rewrite (special_odd _ _ S' I). auto.
    - destruct r; auto. cbn in H. destruct H as [<-|[<-|[<-|[]]]]; reflexivity.
    - destruct r'; auto. cbn in H'. destruct H' as [<-|[<-|[<-|[]]]]; reflexivity.
  Qed.
  Lemma raw_head : forall t r c x, existsb special_char t = false -> halts r -> ~ In c t -> ~ In c (bs ",)]") -> t ++ r = c :: x -> False.
  Proof.
    intros [|d t] r c x S H N M E; cbn [app] in E.
    - subst r. auto.
    - injection E as -> E. apply N. left. auto.
  Qed.
  Lemma quote_no : forall t, existsb (Ascii.eqb """") t = false -> ~ In """"%char t.
  Proof. intros t E I. assert (existsb (Ascii.eqb """") t = true) by (apply existsb_exists; exists """"%char; auto). congruence. Qed.
  Lemma back_no : forall t, existsb special_char t = false -> ~ In "`"%char t.
  Proof. intros t E I. apply (special_odd _ _ E) in I. discriminate. Qed.
  Lemma leaf_inj : forall s s' x x' r r', leaf_string quote s = Some x -> leaf_string quote s' = Some x' -> halts r -> halts r' -> x ++ r = x' ++ r' ->
    alike (ALeaf s) (ALeaf s') /\ r = r'.
  Proof.
    intros s s' x x' r r' L L' H H' E. unfold leaf_string in L, L'. destruct (sstring s) as [t|] eqn:T; [|discriminate]. destruct (sstring s') as [t'|] eqn:T'; [|discriminate].
    apply some_inj in L, L'. subst x x'.
    set (body := if existsb special_char t then quote t else if existsb (Ascii.eqb """") t then bs "`" ++ t ++ bs "`" else t) in *.
    set (body' := if existsb special_char t' then quote t' else if existsb (Ascii.eqb """") t' then bs "`" ++ t' ++ bs "`" else t') in *.
    rewrite <- !app_assoc in E. apply (upto (none_of ["226"%char])) in E as [E1 E2]; try reflexivity.
    2,3: apply decz_none; intros c [<-|[]]; split; [reflexivity|discriminate].
    apply app_inv_head in E2.
    assert (X : t = t' /\ r = r').
    { destruct (proj1 Q t) as [q QT]. destruct (proj1 Q t') as [q' QT']. assert (QQ := proj2 (proj2 Q) t t' r r').
      unfold body, body' in E2. clear body body'. destruct (existsb special_char t) eqn:S1; destruct (existsb special_char t') eqn:S2; auto.
      - destruct (existsb (Ascii.eqb """") t') eqn:D2; rewrite QT in E2; [discriminate E2|]. symmetry in E2.
        exfalso. eapply raw_head; try exact E2; auto. { apply quote_no; auto. } intros [I|[I|[I|[]]]]; discriminate.
      - destruct (existsb (Ascii.eqb """") t) eqn:D2; rewrite QT' in E2; [discriminate E2|].
        exfalso. eapply raw_head; try exact E2; auto. { apply quote_no; auto. } intros [I|[I|[I|[]]]]; discriminate.
      - destruct (existsb (Ascii.eqb """") t) eqn:D1; destruct (existsb (Ascii.eqb """") t') eqn:D2.
        + rewrite <- !app_assoc in E2. apply app_inv_head in E2. apply (upto (none_of ["`"%char])) in E2 as [-> E2]; try reflexivity.
          * apply app_inv_head in E2. auto.
          * apply none_of_spec. intros c I [<-|[]]. revert I. apply back_no. auto.
          * apply none_of_spec. intros c I [<-|[]]. revert I. apply back_no. auto.
        + symmetry in E2. exfalso. rewrite <- app_assoc in E2. eapply (raw_head t' r' "`"%char); try exact E2; auto. { apply back_no; auto. } intros [I|[I|[I|[]]]]; discriminate.
        + exfalso. rewrite <- app_assoc in E2. eapply (raw_head t r "`"%char); try exact E2; auto. { apply back_no; auto. } intros [I|[I|[I|[]]]]; discriminate.
        + apply raw_text in E2; auto. }
    destruct X as [-> ->]. split; auto. constructor; [apply decz_inj; auto|congruence].
  Qed.

  (** Lists in brackets. *)
  Section Items.
    Variables (A : Type) (one two : A -> bytes -> Prop) (R : A -> A -> Prop) (close : ascii).
    Hypothesis CL : In close (bs ")]").
    Hypothesis INJ : forall a a' x x' r r', one a x -> two a' x' -> x ++ r = x' ++ r' -> halts r -> halts r' -> R a a' /\ r = r'.
    Hypothesis H1 : forall a x, one a x -> exists c t, x = c :: t /\ c <> close /\ c <> " "%char.
    Hypothesis H2 : forall a x, two a x -> exists c t, x = c :: t /\ c <> close /\ c <> " "%char.
    Lemma close_comma : close <> ","%char.
    Proof. destruct CL as [<-|[<-|[]]]; discriminate. Qed.
    Lemma halts_loose : forall xs r, halts (flat_map (fun y => bs ", " ++ y) xs ++ close :: r).
    Proof. intros [|x xs] r; cbn; [destruct CL as [<-|[<-|[]]]|]; auto. Qed.
    Lemma halts_tight : forall xs r, halts (flat_map (fun y => bs "," ++ y) xs ++ ","%char :: close :: r).
    Proof. intros [|x xs] r; cbn; auto. Qed.
    Lemma loose_loose : forall l l' xs xs' r r', Forall2 one l xs -> Forall2 two l' xs' ->
      flat_map (fun y => bs ", " ++ y) xs ++ close :: r = flat_map (fun y => bs ", " ++ y) xs' ++ close :: r' -> Forall2 R l l' /\ r = r'.
    Proof.
      induction l as [|a l IH]; intros [|a' l'] xs xs' r r' F F' E; inversion F as [|? x ? ys F1 F2]; inversion F' as [|? x' ? ys' F1' F2']; subst; cbn [flat_map] in E.
      - injection E as ->. auto.
      - cbn in E. injection E as E _. destruct (close_comma E).
      - cbn in E. injection E as E _. symmetry in E. destruct (close_comma E).
      - rewrite <- !app_assoc in E. apply app_inv_head in E. eapply INJ in E as [RR E]; eauto using halts_loose.
        destruct (IH l' ys ys' r r') as [G ->]; auto.
    Qed.
    Lemma tight_tight : forall l l' xs xs' r r', Forall2 one l xs -> Forall2 two l' xs' ->
      flat_map (fun y => bs "," ++ y) xs ++ ","%char :: close :: r = flat_map (fun y => bs "," ++ y) xs' ++ ","%char :: close :: r' -> Forall2 R l l' /\ r = r'.
    Proof.
      induction l as [|a l IH]; intros [|a' l'] xs xs' r r' F F' E; inversion F as [|? x ? ys F1 F2]; inversion F' as [|? x' ? ys' F1' F2']; subst; cbn [flat_map] in E.
      - injection E as ->. auto.
      - destruct (H2 _ _ F1') as (c & t & -> & N & _). cbn in E. injection E as E _. congruence.
      - destruct (H1 _ _ F1) as (c & t & -> & N & _). cbn in E. injection E as E _. congruence.
      - rewrite <- !app_assoc in E. apply app_inv_head in E. eapply INJ in E as [RR E]; eauto using halts_tight.
        destruct (IH l' ys ys' r r') as [G ->]; auto.
    Qed.
    Lemma body_inj : forall l l' xs xs' x x' r r', Forall2 one l xs -> Forall2 two l' xs' -> body xs x -> body xs' x' ->
      x ++ close :: r = x' ++ close :: r' -> Forall2 R l l' /\ r = r'.
    Proof.
      intros l l' xs xs' x x' r r' F F' B B' E. destruct B as [|x xs|x y xs]; destruct B' as [|x' xs'|x' y' xs'];
        inversion F as [|a ? l1 ? F1 F2]; inversion F' as [|a' ? l1' ? F1' F2']; subst; cbn [app] in E.
      - injection E as ->. auto.
      - destruct (H2 _ _ F1') as (c & t & -> & N & _). cbn [app] in E. injection E as E _. congruence.
      - destruct (H2 _ _ F1') as (c & t & -> & N & _). cbn [app] in E. injection E as E _. congruence.
      - destruct (H1 _ _ F1) as (c & t & -> & N & _). cbn [app] in E. injection E as E _. congruence.
      - rewrite <- !app_assoc in E. eapply INJ in E as [RR E]; eauto using halts_loose. apply (loose_loose l1 l1') in E as [G ->]; auto.
      - exfalso. rewrite <- !app_assoc in E. eapply INJ in E as [RR E]; eauto using halts_loose; [|cbn; auto]. inversion F2' as [|? ? ? ? K _]; subst.
        destruct (H2 _ _ K) as (c & t & -> & _ & N). destruct xs as [|z xs]; cbn in E; injection E as E; [destruct (close_comma E)|congruence].
      - destruct (H1 _ _ F1) as (c & t & -> & N & _). cbn [app] in E. injection E as E _. congruence.
      - exfalso. rewrite <- !app_assoc in E. eapply INJ in E as [RR E]; eauto using halts_loose; [|cbn; auto]. inversion F2 as [|? ? ? ? K _]; subst.
        destruct (H1 _ _ K) as (c & t & -> & _ & N). destruct xs' as [|z xs']; cbn in E; injection E as E; [symmetry in E; destruct (close_comma E)|congruence].
      - rewrite <- !app_assoc in E. eapply INJ in E as [RR E]; eauto; [|cbn; auto..]. apply (tight_tight l1 l1') in E as [G ->]; auto.
    Qed.
  End Items.

  Lemma compact_head : forall n x, clear n -> compact n x -> exists c t, x = c :: t /\ ~ In c (bs " ,)][").
  Proof.
    intros n x C H. inversion H; subst.
    - unfold leaf_string in H0. destruct (sstring s); [|discriminate]. apply some_inj in H0. subst x. destruct (decz_chars (offset s)) as (c & r & E & D & _). rewrite E.
      exists c. eexists. split; [reflexivity|]. intros I. cbn in I. repeat destruct I as [<-|I]; try contradiction; destruct D; discriminate.
    - inversion C as [|? CD|]; subst. destruct (CD _ (data_string_text d)) as [N K]. destruct (data_string d) as [|c r]; [congruence|].
      exists c, r. split; auto. intros I. apply (K c (or_introl eq_refl)). cbn in *. intuition auto.
    - exists "("%char. eexists. split; [reflexivity|]. intros I. cbn in I. repeat destruct I as [I|I]; try contradiction; discriminate.
  Qed.
  Lemma entry_head : forall e x, clear_name (fst e) -> compact_entry e x -> exists c t, x = c :: t /\ c <> ")"%char /\ c <> " "%char.
  Proof.
    intros e x C H. assert (X : exists y, x = name_text (fst e) ++ y) by (inversion H; subst; cbn [fst]; eauto). destruct X as [y ->].
    unfold name_text. destruct (String.eqb_spec (fst e) "") as [E|N].
    - exists "'"%char. eexists. split; [reflexivity|split; discriminate].
    - destruct (bs (fst e)) as [|c r] eqn:E; [destruct (fst e); [congruence|discriminate]|].
      exists c, (r ++ y). split; auto. split; intros ->; (eapply (C _); [rewrite E; left; reflexivity|]); cbn; auto 10.
  Qed.
  Lemma name_colon : forall k, clear_name k -> forallb (none_of [":"%char]) (name_text k) = true.
  Proof.
    intros k C. unfold name_text. destruct (String.eqb k ""); [reflexivity|]. apply none_of_spec. intros c I [<-|[]]. apply (C _ I). cbn. auto.
  Qed.
  Lemma bs_inj : forall k k', bs k = bs k' -> k = k'.
  Proof. intros k k' E. rewrite <- (string_of_list_ascii_of_string k), <- (string_of_list_ascii_of_string k'). unfold bs in E. congruence. Qed.
  Lemma name_inj : forall k k' r r', clear_name k -> clear_name k' -> name_text k ++ bs ": " ++ r = name_text k' ++ bs ": " ++ r' -> k = k' /\ r = r'.
  Proof.
    intros k k' r r' C C' E. apply (upto (none_of [":"%char])) in E as [E1 E2]; auto using name_colon; try reflexivity. apply app_inv_head in E2. split; auto.
    unfold name_text in E1. destruct (String.eqb_spec k "") as [->|N]; destruct (String.eqb_spec k' "") as [->|N']; auto.
    - exfalso. eapply (C' "'"%char); [rewrite <- E1; left; auto|cbn; auto 10].
    - exfalso. eapply (C "'"%char); [rewrite E1; left; auto|cbn; auto 10].
    - apply bs_inj. auto.
  Qed.
  Lemma halts_end : forall l r, (forall c, In c (bs ",)]") -> In c l) -> halts r -> match r with [] => True | c :: _ => none_of l c = false end.
  Proof. intros l [|c r] S H; auto. apply none_of_In. auto. Qed.
  Lemma extra_clear : forall d, clear_data d -> forallb (none_of ("226"%char :: bs ",)]")) (data_string d) = true.
  Proof.
    intros d C. apply none_of_spec. intros c I J. destruct (C _ (data_string_text d)) as [_ K]. apply (K c I). cbn in *. intuition auto.
  Qed.
  Lemma leaf_extra : forall s d x r r', leaf_string quote s = Some x -> clear_data d -> halts r -> halts r' -> x ++ r = data_string d ++ r' -> False.
  Proof.
    intros s d x r r' L C H H' E. unfold leaf_string in L. destruct (sstring s); [|discriminate]. apply some_inj in L. subst x. rewrite <- app_assoc in E.
    apply (upto (none_of ("226"%char :: bs ",)]"))) in E as [_ E]; auto using extra_clear.
    - destruct r' as [|c r']; [discriminate|]. rewrite <- app_assoc in E. injection E as E _. subst c. cbn in H'. repeat destruct H' as [H'|H']; discriminate || contradiction.
    - apply decz_none. intros c I. cbn in I. repeat destruct I as [<-|I]; try contradiction; split; reflexivity || discriminate.
    - rewrite <- app_assoc. reflexivity.
    - apply halts_end; auto. intros c I. right. auto.
  Qed.
  Lemma leaf_paren : forall s x r y, leaf_string quote s = Some x -> x ++ r = "("%char :: y -> False.
  Proof.
    intros s x r y L E. unfold leaf_string in L. destruct (sstring s); [|discriminate]. apply some_inj in L. subst x.
    destruct (decz_chars (offset s)) as (c & t & D & [K| ->] & _); rewrite D in E; [injection E as -> _|]; discriminate.
  Qed.
  Lemma extra_paren : forall d r y, clear_data d -> data_string d ++ r = "("%char :: y -> False.
  Proof.
    intros d r y C E. destruct (C _ (data_string_text d)) as [N K]. destruct (data_string d) as [|c t]; [congruence|]. injection E as -> _.
    apply (K "("%char); [left; auto|cbn; auto 10].
  Qed.

  Definition reads (n : anode) : Prop := clear n -> forall n' x x' r r', clear n' -> compact n x -> compact n' x' -> x ++ r = x' ++ r' -> halts r -> halts r' ->
    alike n n' /\ r = r'.
  Definition reads_kids (c : children anode) : Prop := clear_kids c -> forall k e x x' r r', clear_name k -> clear_name (fst e) -> clear_kids (snd e) ->
    compact_entry (k, c) x -> compact_entry e x' -> x ++ r = x' ++ r' -> halts r -> halts r' -> alike_entry (k, c) e /\ r = r'.
  Lemma Forall2_with : forall A B (P : A -> B -> Prop) (G : A -> Prop) l m, Forall2 P l m -> (forall a, In a l -> G a) -> Forall2 (fun a b => P a b /\ G a) l m.
  Proof. intros A B P G l m H. induction H; intros K; constructor; [split; auto; apply K; left; auto|]. apply IHForall2. intros z I. apply K. right. auto. Qed.
  Lemma compact_inj : forall n, reads n.
  Proof.
    intros n. apply (anode_ind' reads reads_kids); clear n.
    - intros s _ n' x x' r r' C' H H' E L L'. inversion H as [? ? LS| |]; subst. inversion H' as [? ? LS'|d|? ? ? ? ? ? ?]; subst.
      + eapply leaf_inj; eauto.
      + exfalso. inversion C'; subst. eapply leaf_extra; [eassumption| | | |exact E]; auto.
      + exfalso. eapply leaf_paren; eauto. rewrite E. reflexivity.
    - intros d C n' x x' r r' C' H H' E L L'. inversion C; subst. inversion H; subst. inversion H' as [? ? LS'|d'|? ? ? ? ? ? ?]; subst.
      + exfalso. symmetry in E. eapply leaf_extra; [eassumption| | | |exact E]; auto.
      + inversion C'; subst. apply (upto (none_of ("226"%char :: bs ",)]"))) in E as [E1 E2]; auto using extra_clear.
        * split; auto. apply (al_extra _ _ (data_string d)); [|rewrite E1]; apply data_string_text.
        * apply halts_end; auto. intros c I. right. auto.
        * apply halts_end; auto. intros c I. right. auto.
      + exfalso. eapply (extra_paren d); eauto. rewrite E. reflexivity.
    - intros b F C n' x x' r r' C' H H' E L L'. inversion C as [| |? ND CB]; subst. inversion H as [| |? b1 xs y P1 F1 B1]; subst. inversion H' as [? ? LS'|d'|b' b1' xs' y' P1' F1' B1']; subst.
      + exfalso. eapply leaf_paren; eauto. rewrite <- E. reflexivity.
      + exfalso. inversion C'; subst. eapply (extra_paren d'); eauto. rewrite <- E. reflexivity.
      + inversion C' as [| |? ND' CB']; subst. rewrite <- !app_assoc in E. apply app_inv_head in E.
        assert (G1 : Forall2 (fun e x => compact_entry e x /\ (clear_name (fst e) /\ clear_kids (snd e) /\ reads_kids (snd e))) b1 xs).
        { apply Forall2_with; auto. intros [k c] I. apply (Permutation_in _ (Permutation_sym P1)) in I. destruct (CB _ _ I). rewrite Forall_forall in F. split; [auto|]. split; [auto|]. apply (F _ I). }
        assert (G2 : Forall2 (fun e x => compact_entry e x /\ (clear_name (fst e) /\ clear_kids (snd e))) b1' xs').
        { apply Forall2_with; auto. intros [k c] I. apply (Permutation_in _ (Permutation_sym P1')) in I. apply (CB' _ _ I). }
        assert (AR : Forall2 alike_entry b1 b1' /\ r = r'); [eapply (body_inj _ _ _ alike_entry ")"%char (or_introl eq_refl)) with (4 := G1) (5 := G2) (6 := B1) (7 := B1') (8 := E)|destruct AR as [AL RR]].
        * intros [k c] e z z' q q' (Z1 & Z2 & Z3 & Z4) (W1 & W2 & W3) EQ HQ HQ'. cbn [fst snd] in *. eapply (Z4 Z3); eauto.
        * intros e z (Z1 & Z2 & _). eapply entry_head; eauto.
        * intros e z (Z1 & Z2 & _). eapply entry_head; eauto.
        * split; auto. destruct (Permutation_Forall2 (Permutation_sym P1) AL) as (bm & PM & FM). eapply al_branch; [exact FM|].
          eapply perm_trans; [apply Permutation_sym, PM|]. apply Permutation_sym, P1'.
    - intros n IH C k [k' c'] x x' r r' CN CN' CK' H H' E L L'. inversion C; subst. inversion H as [? ? y HY|]; subst. cbn [fst snd] in *.
      inversion H' as [? n' y' HY'|? ns' xs' y' FX B]; subst; rewrite <- !app_assoc in E; apply name_inj in E as [<- E]; auto.
      + inversion CK'; subst. destruct (IH H1 n' y y' r r') as [AL ->]; auto. split; auto. constructor. auto.
      + exfalso. destruct (compact_head n y) as (c & t & -> & NI); auto. injection E as E _. subst c. apply NI. cbn. auto 10.
    - intros ns F C k [k' c'] x x' r r' CN CN' CK' H H' E L L'. inversion C as [|? CA]; subst. inversion H as [|? ? xs y FY B]; subst. cbn [fst snd] in *.
      inversion H' as [? n' y' HY'|? ns' xs' y' FX B']; subst; rewrite <- !app_assoc in E; apply name_inj in E as [<- E]; auto.
      + exfalso. inversion CK'; subst. destruct (compact_head n' y') as (c & t & -> & NI); auto. injection E as E _. subst c. apply NI. cbn. auto 10.
      + inversion CK' as [|? CA']; subst. rewrite <- ?app_assoc in E. apply app_inv_head in E. rewrite <- ?app_assoc in E.
        assert (G1 : Forall2 (fun m x => compact m x /\ (clear m /\ reads m)) ns xs).
        { apply Forall2_with; auto. intros m I. rewrite Forall_forall in F. split; auto. }
        assert (G2 : Forall2 (fun m x => compact m x /\ clear m) ns' xs').
        { apply Forall2_with; auto. }
        assert (AR : Forall2 alike ns ns' /\ r = r'); [eapply (body_inj _ _ _ alike "]"%char (or_intror (or_introl eq_refl))) with (4 := G1) (5 := G2) (6 := B) (7 := B') (8 := E)|destruct AR as [AL RR]].
        * intros m m' z z' q q' (Z1 & Z2 & Z3) (W1 & W2) EQ HQ HQ'. eapply (Z3 Z2); eauto.
        * intros m z (Z1 & Z2 & _). destruct (compact_head m z) as (c & t & -> & NI); auto. exists c, t. split; auto. split; intros ->; apply NI; cbn; auto 10.
        * intros m z (Z1 & Z2). destruct (compact_head m z) as (c & t & -> & NI); auto. exists c, t. split; auto. split; intros ->; apply NI; cbn; auto 10.
        * split; auto. constructor. auto.
  Qed.

  Theorem string_faithful : forall n n' x, clear n -> clear n' -> node_string quote n = Some x -> node_string quote n' = Some x -> alike n n'.
  Proof.
    intros n n' x C C' E E'. destruct (compact_string n C x E) as [H _]. destruct (compact_string n' C' x E') as [H' _].
    apply (compact_inj n C n' _ _ [] [] C' H H'); cbn; auto.
  Qed.

  (** * The order of names does not matter *)

  Lemma string_le_antisym : forall a b, string_le a b -> string_le b a -> a = b.
  Proof.
    unfold string_le. intros a b H1 H2. destruct (String.compare a b) eqn:E; [|rewrite String.compare_antisym, E in H2; cbn in H2; congruence|congruence].
    apply String.compare_eq_iff. auto.
  Qed.
  Lemma ordered_unique : forall l l', CodegenProofs.ordered l -> CodegenProofs.ordered l' -> Permutation l l' -> l = l'.
  Proof.
    induction l as [|x l IH]; intros l' O O' P; [symmetry; apply Permutation_nil; auto|]. destruct l' as [|y l']; [symmetry in P; apply Permutation_nil in P; discriminate|].
    inversion O as [|? ? F1 O1]; inversion O' as [|? ? F2 O2]; subst. rewrite Forall_forall in F1, F2.
    assert (x = y).
    { assert (I1 : In y (x :: l)) by (eapply Permutation_in; [apply Permutation_sym, P|left; auto]). assert (I2 : In x (y :: l')) by (eapply Permutation_in; [apply P|left; auto]).
      destruct I1 as [|I1]; auto. destruct I2 as [|I2]; auto. apply string_le_antisym; auto. }
    subst y. f_equal. apply IH; auto. eapply Permutation_cons_inv; eauto.
  Qed.
  Lemma branch_loop_ext : forall pre strs strs', (forall k, lookup k strs = lookup k strs') -> forall ks first, branch_loop pre first ks strs = branch_loop pre first ks strs'.
  Proof. intros pre strs strs' H. induction ks as [|k ks IH]; intros first; auto. cbn [branch_loop]. rewrite H, IH. reflexivity. Qed.
  Lemma branch_string_perm : forall strs strs', NoDup (keys strs) -> Permutation strs strs' -> branch_string strs = branch_string strs'.
  Proof.
    intros strs strs' N P. unfold branch_string. rewrite (Permutation_length P).
    assert (K : sort_strings (keys strs) = sort_strings (keys strs')).
    { apply ordered_unique; try apply sort_ordered. eapply perm_trans; [apply sort_perm|]. eapply perm_trans; [|apply Permutation_sym, sort_perm]. unfold keys. apply Permutation_map. auto. }
    rewrite K. rewrite (branch_loop_ext _ strs strs'); auto. apply lookup_perm; auto.
  Qed.
  Definition kids_narrow (c : children anode) : bool := match c with One m => node_narrow m | Many [] => true | Many [m] => node_narrow m | Many _ => false end.
  Lemma node_narrow_branch : forall b, node_narrow (ABranch b) = match b with [] => true | [e] => kids_narrow (snd e) | _ => false end.
  Proof. intros [|[k [m|[|m [|m2 ms]]]] [|e2 b]]; reflexivity. Qed.

  Definition same (n : anode) : Prop := keyed n -> forall n', alike n n' -> node_narrow n = node_narrow n' /\ node_string quote n = node_string quote n'.
  Definition same_kids (c : children anode) : Prop := keyed_kids c -> forall k k' c', alike_entry (k, c) (k', c') ->
    k = k' /\ kids_narrow c = kids_narrow c' /\ kids_string c = kids_string c'.
  Theorem string_order : forall n, same n.
  Proof.
    intros n. apply (anode_ind' same same_kids); clear n.
    - intros s _ n' A. inversion A as [? ? E1 E2| |]; subst. split; auto. cbn [node_string]. unfold leaf_string. rewrite E1, E2. auto.
    - intros d _ n' A. inversion A as [|? ? ? E1 E2|]; subst. split; auto. cbn [node_string]. apply data_text_fun in E1, E2. congruence.
    - intros b F K n' A. inversion K as [| |? ND KB]; subst. inversion A as [| |? b1 b' F2 P]; subst. rewrite !node_string_branch, !node_narrow_branch.
      assert (X : map (fun kc : string * children anode => (fst kc, kids_string (snd kc))) b = map (fun kc => (fst kc, kids_string (snd kc))) b1 /\
                  match b with [] => true | [e] => kids_narrow (snd e) | _ => false end = match b1 with [] => true | [e] => kids_narrow (snd e) | _ => false end).
      { clear P A K ND. assert (Y : Forall2 (fun e e1 => fst e = fst e1 /\ kids_narrow (snd e) = kids_narrow (snd e1) /\ kids_string (snd e) = kids_string (snd e1)) b b1).
        { revert F KB. induction F2 as [|[k c] [k' c'] b b1 AE F2 IH]; intros F KB; constructor.
          - inversion F; subst. cbn [fst snd] in *. apply (H1 (KB k c (or_introl eq_refl)) _ _ _ AE).
          - inversion F; subst. apply IH; auto. intros k0 c0 I. apply (KB k0). right. auto. }
        split.
        - clear F F2 KB. induction Y as [|e e1 b b1 (Y1 & _ & Y2) Y IH]; auto. cbn [map]. rewrite Y1, Y2, IH. auto.
        - clear F F2 KB. inversion Y as [|e e1 ? ? (Y1 & Y2 & Y3) YY]; auto. inversion YY; auto. }
      destruct X as [X1 X2].
      assert (ND1 : NoDup (keys (map (fun kc : string * children anode => (fst kc, kids_string (snd kc))) b1))).
      { rewrite <- X1. unfold keys. rewrite map_map. exact ND. }
      rewrite X1, X2. split.
      + destruct b1 as [|e [|e2 b1]]; [apply Permutation_nil in P; subst; auto|apply Permutation_length_1_inv in P; subst; auto|].
        apply Permutation_length in P. destruct b' as [|f [|f2 b']]; discriminate || reflexivity.
      + apply branch_string_perm; auto. apply Permutation_map. auto.
    - intros n IH K k k' c' A. inversion K; subst. inversion A; subst. split; auto. cbn [kids_narrow kids_string]. apply IH; auto.
    - intros ns F K k k' c' A. inversion K as [|? KA]; subst. inversion A as [|? ? ns' F2]; subst. split; auto.
      assert (Y : Forall2 (fun n n' => node_narrow n = node_narrow n' /\ node_string quote n = node_string quote n') ns ns').
      { clear A K. revert F KA. induction F2 as [|m m' ns ns' AE F2 IH]; intros F KA; constructor.
        - inversion F; subst. apply H1; auto. apply KA. left. auto.
        - inversion F; subst. apply IH; auto. intros m0 I. apply KA. right. auto. }
      split.
      + cbn [kids_narrow]. inversion Y as [|? ? ? ? [Y1 _] YY]; auto. inversion YY; auto.
      + cbn [kids_string]. f_equal.
        * clear -Y. induction Y as [|? ? ? ? [Y1 _] YY IH]; auto. cbn [map]. congruence.
        * clear -Y. induction Y as [|? ? ? ? [_ Y1] YY IH]; auto. cbn [map]. congruence.
  Qed.

  (** * There is a printed form *)

  Lemma many_total : forall complex xs first, exists x, many_loop complex first (map Some xs) = Some x.
  Proof. intros complex. induction xs as [|y xs IH]; intros first; cbn [map many_loop]; eauto. destruct (IH false) as [x ->]. eauto. Qed.
  Lemma branch_total : forall pre strs ks first, (forall k, In k ks -> exists x, lookup k strs = Some (Some x)) -> exists x, branch_loop pre first ks strs = Some x.
  Proof.
    intros pre strs. induction ks as [|k ks IH]; intros first H; cbn [branch_loop]; eauto. destruct (H k (or_introl eq_refl)) as [x ->].
    destruct (IH false) as [y ->]; eauto. intros k' I. apply H. right. auto.
  Qed.
  Lemma all_some : forall A (f : A -> option bytes) l, (forall a, In a l -> exists x, f a = Some x) -> exists xs, map f l = map Some xs.
  Proof.
    intros A f. induction l as [|a l IH]; intros H; [exists []; auto|]. destruct (H a (or_introl eq_refl)) as [x E]. destruct IH as [xs X]; [intros b I; apply H; right; auto|].
    exists (x :: xs). cbn [map]. congruence.
  Qed.
  Theorem string_total : forall n, AstSpec.filled n -> exists x, node_string quote n = Some x.
  Proof.
    intros n. apply (anode_ind' (fun n => AstSpec.filled n -> exists x, node_string quote n = Some x) (fun c => AstSpec.filled_kids c -> exists x, kids_string c = Some x)); clear n.
    - intros s F. inversion F as [? t E| |]; subst. cbn [node_string]. unfold leaf_string. rewrite E. eauto.
    - intros d _. cbn [node_string]. eauto.
    - intros b F H. inversion H as [| |? ND FB]; subst. rewrite node_string_branch. unfold branch_string.
      set (strs := map (fun kc : string * children anode => (fst kc, kids_string (snd kc))) b).
      destruct (branch_total (if Nat.ltb 1 (length strs) then bs "  " else []) strs (sort_strings (keys strs)) true) as [x ->]; eauto.
      intros k I. apply (Permutation_in _ (sort_perm _)) in I. unfold strs, keys in I. rewrite map_map in I. apply in_map_iff in I as ((k' & c) & <- & I). cbn [fst].
      unfold strs. rewrite (lookup_map _ _ (fun _ => kids_string)). rewrite (In_lookup _ _ _ ND I). rewrite Forall_forall in F, FB. destruct (F _ I (FB _ I)) as [x E]. cbn [snd] in E. rewrite E. eauto.
    - intros n IH F. inversion F; subst. cbn [kids_string]. auto.
    - intros ns F H. inversion H as [|m ms FM]; subst. cbn [kids_string]. rewrite Forall_forall in F, FM.
      destruct (all_some _ (node_string quote) (m :: ms)) as [xs X]; [intros a I; apply F; auto|]. rewrite X. unfold many_string.
      match goal with |- context [many_loop ?c true _] => destruct (many_total c xs true) as [x ->]; eauto end.
  Qed.
End Read.
