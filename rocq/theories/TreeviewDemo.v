(** Map orders and sorting for the examples about tree views. *)
From Verif Require Import Base Scanner Syntax Resolve Ast AstSpec Gotree Treeview TreeviewSpec.
Local Open Scope Z_scope.

(** The order of the list, and its reverse. *)
Definition forth (p : list nat) (gs : list (list gtree)) : list (list gtree) := gs.
Definition back (p : list nat) (gs : list (list gtree)) : list (list gtree) := rev gs.
Lemma forth_any : any_order forth.
Proof. intros p gs. apply Permutation_refl. Qed.
Lemma back_any : any_order back.
Proof. intros p gs. symmetry. apply Permutation_rev. Qed.

(** Insertion sort; equal ranks keep their order, or are turned around. *)
Fixpoint put_in (stable : bool) (x : Z * gtree) (l : list (Z * gtree)) : list (Z * gtree) :=
  match l with
  | [] => [x]
  | y :: l' => if (if stable then fst x <=? fst y else fst x <? fst y) then x :: l else y :: put_in stable x l'
  end.
Definition sorting (stable : bool) (p : list nat) (l : list (Z * gtree)) : list (Z * gtree) := fold_right (put_in stable) [] l.

Inductive upward : list (Z * gtree) -> Prop :=
| up_nil : upward []
| up_cons : forall x l, Forall (fun y => fst x <= fst y) l -> upward l -> upward (x :: l).
Lemma put_in_perm : forall st x l, Permutation (put_in st x l) (x :: l).
Proof.
  induction l as [|y l IH]; auto. cbn [put_in]. destruct (if st then fst x <=? fst y else fst x <? fst y); auto.
  rewrite IH. constructor.
Qed.
Lemma put_in_upward : forall st x l, upward l -> upward (put_in st x l).
Proof.
  induction 1 as [|y l F U IH]; [repeat constructor|]. cbn [put_in].
  destruct (if st then fst x <=? fst y else fst x <? fst y) eqn:E.
  - assert (fst x <= fst y) by (destruct st; lia). constructor; [|constructor; auto]. constructor; auto.
    eapply Forall_impl; [|exact F]. simpl. intros a A. lia.
  - assert (fst y <= fst x) by (destruct st; lia). constructor; auto.
    apply Forall_forall. intros z I. eapply Permutation_in in I; [|apply put_in_perm]. destruct I as [<-|I]; auto. rewrite Forall_forall in F. auto.
Qed.
Lemma sorting_sorts : forall st, sorts (sorting st).
Proof.
  intros st p l. split.
  - unfold sorting. induction l as [|x l IH]; auto. simpl. rewrite put_in_perm. now constructor.
  - assert (U : upward (sorting st p l)) by (unfold sorting; induction l; [constructor|apply put_in_upward; auto]).
    induction U as [|x m F U IH]; intros i j a b L A B; [destruct i; discriminate|].
    destruct j as [|j]; [lia|]. destruct i as [|i]; simpl in *.
    + inversion A; subst. rewrite Forall_forall in F. apply F. eapply nth_error_In; eauto.
    + eapply (IH i j); eauto. lia.
Qed.

(** Oracles for the examples: quoting, and the text of an [Extra]. *)
Definition quoted (x : bytes) : bytes := bs """" ++ x ++ bs """".
Definition data_text (d : adata) : bytes :=
  match d with DRule r => bs r | DString x => bs x | DChoice i => bs (dec i) | _ => [] end.

(** A check for settled ASTs. *)
Definition is_extra (n : anode) : bool := match n with AExtra _ => true | _ => false end.
Definition number_name_b (k : string) : bool := match k with String c _ => existsb (Ascii.eqb c) (bs "123456789") | EmptyString => false end.
Fixpoint settled_b (n : anode) : bool :=
  match n with
  | ALeaf _ => true
  | AExtra _ => false
  | ABranch b =>
      existsb (fun kv : string * children anode => negb (String.prefix "@" (fst kv)) && match snd kv with Many [] => false | _ => true end)%bool b &&
      forallb (fun kv : string * children anode =>
        if String.prefix "@" (fst kv) then match snd kv with One n => is_extra n | Many ns => forallb is_extra ns end
        else negb (number_name_b (fst kv)) && match snd kv with One n => settled_b n | Many ns => forallb settled_b ns end)%bool b
  end.
