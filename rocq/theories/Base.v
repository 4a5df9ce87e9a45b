(** Byte strings, association lists and other small helpers used by the model.
    Nothing here models a function of /repo; these are the stand-ins for Go's
    built-in strings, slices and maps (see DESIGN.md, "Conventions"). *)
From Coq Require Export List Ascii String ZArith Lia Bool Arith Permutation.
Export ListNotations.
(* keep list notations/functions in front of the string ones *)
From Coq Require Export List.

Definition bytes := list ascii.

(** A Coq string literal as bytes. *)
Definition bs (s : string) : bytes := list_ascii_of_string s.
Definition sb (b : bytes) : string := string_of_list_ascii b.

Lemma sb_bs : forall s, sb (bs s) = s.
Proof. exact string_of_list_ascii_of_string. Qed.
Lemma bs_sb : forall b, bs (sb b) = b.
Proof. exact list_ascii_of_string_of_list_ascii. Qed.

(** Byte for newline. *)
Definition nl : ascii := "010"%char.

(** Equality of byte strings (Go [==] on strings). *)
Fixpoint beqb (a b : bytes) : bool :=
  match a, b with
  | [], [] => true
  | x :: a', y :: b' => Ascii.eqb x y && beqb a' b'
  | _, _ => false
  end.

Lemma beqb_eq : forall a b, beqb a b = true <-> a = b.
Proof.
  induction a as [|x a IH]; destruct b as [|y b]; simpl; split; intro H; try discriminate; auto.
  - apply andb_true_iff in H as [H1 H2]. apply Ascii.eqb_eq in H1. apply IH in H2. congruence.
  - inversion H; subst. rewrite Ascii.eqb_refl. simpl. now apply IH.
Qed.

Lemma beqb_refl : forall a, beqb a a = true.
Proof. intro a. now apply beqb_eq. Qed.

Lemma beqb_neq : forall a b, beqb a b = false <-> a <> b.
Proof.
  intros a b. split.
  - intros H E. apply beqb_eq in E. congruence.
  - intro H. destruct (beqb a b) eqn:E; auto. apply beqb_eq in E. contradiction.
Qed.

(** Go [strings.HasPrefix]. *)
Fixpoint has_prefix (p s : bytes) : bool :=
  match p, s with
  | [], _ => true
  | x :: p', y :: s' => Ascii.eqb x y && has_prefix p' s'
  | _ :: _, [] => false
  end.

Lemma has_prefix_iff : forall p s, has_prefix p s = true <-> exists r, s = p ++ r.
Proof.
  induction p as [|x p IH]; intros s; simpl.
  - split; eauto.
  - destruct s as [|y s].
    + split; [discriminate | intros [r H]; discriminate].
    + rewrite andb_true_iff, Ascii.eqb_eq, IH. split.
      * intros [-> [r ->]]. eauto.
      * intros [r H]. inversion H. eauto.
Qed.

(** Association lists keyed by strings: the stand-in for Go maps. *)
Section Assoc.
  Context {A : Type}.

  Fixpoint lookup (k : string) (l : list (string * A)) : option A :=
    match l with
    | [] => None
    | (k', v) :: l' => if String.eqb k k' then Some v else lookup k l'
    end.

  (** Map assignment [m[k] = v]: replaces in place or appends. *)
  Fixpoint aset (k : string) (v : A) (l : list (string * A)) : list (string * A) :=
    match l with
    | [] => [(k, v)]
    | (k', v') :: l' => if String.eqb k k' then (k, v) :: l' else (k', v') :: aset k v l'
    end.

  (** Map [delete(m, k)]. *)
  Fixpoint adel (k : string) (l : list (string * A)) : list (string * A) :=
    match l with
    | [] => []
    | (k', v') :: l' => if String.eqb k k' then adel k l' else (k', v') :: adel k l'
    end.

  Definition has (k : string) (l : list (string * A)) : bool :=
    match lookup k l with Some _ => true | None => false end.

  Definition keys (l : list (string * A)) : list string := map fst l.

  Lemma lookup_aset_eq : forall k v l, lookup k (aset k v l) = Some v.
  Proof.
    induction l as [|[k' v'] l IH]; simpl.
    - now rewrite String.eqb_refl.
    - destruct (String.eqb k k') eqn:E; simpl.
      + now rewrite String.eqb_refl.
      + now rewrite E.
  Qed.

  Lemma lookup_aset_neq : forall k k2 v l, k <> k2 -> lookup k2 (aset k v l) = lookup k2 l.
  Proof.
    intros k k2 v l N. induction l as [|[k' v'] l IH]; simpl.
    - destruct (String.eqb k2 k) eqn:E; auto. apply String.eqb_eq in E. congruence.
    - destruct (String.eqb k k') eqn:E; simpl.
      + apply String.eqb_eq in E. subst k'.
        destruct (String.eqb k2 k) eqn:E2; auto. apply String.eqb_eq in E2. congruence.
      + now rewrite IH.
  Qed.

  Lemma lookup_In : forall k v l, lookup k l = Some v -> In (k, v) l.
  Proof.
    induction l as [|[k' v'] l IH]; simpl; intro H; [discriminate|].
    destruct (String.eqb k k') eqn:E.
    - apply String.eqb_eq in E. inversion H. subst. now left.
    - right. auto.
  Qed.

  Lemma lookup_None : forall k l, lookup k l = None <-> ~ In k (keys l).
  Proof.
    induction l as [|[k' v'] l IH]; simpl.
    - split; auto.
    - destruct (String.eqb k k') eqn:E.
      + apply String.eqb_eq in E. subst. split; [discriminate|]. intro H. exfalso. auto.
      + apply String.eqb_neq in E. rewrite IH. split; intros H.
        * intros [F|F]; [congruence|auto].
        * intro F. auto.
  Qed.

  Lemma In_lookup : forall k v l, NoDup (keys l) -> In (k, v) l -> lookup k l = Some v.
  Proof.
    induction l as [|[k' v'] l IH]; simpl; intros ND H; [contradiction|].
    inversion ND as [|? ? N1 N2]; subst.
    destruct H as [H|H].
    - inversion H. subst. now rewrite String.eqb_refl.
    - destruct (String.eqb k k') eqn:E.
      + apply String.eqb_eq in E. subst. exfalso. apply N1.
        apply in_map_iff. exists (k', v). auto.
      + auto.
  Qed.

  Lemma lookup_perm : forall l l', NoDup (keys l) -> Permutation l l' ->
    forall k, lookup k l = lookup k l'.
  Proof.
    intros l l' ND P k.
    assert (ND' : NoDup (keys l')).
    { eapply Permutation_NoDup; [apply Permutation_map; exact P | exact ND]. }
    destruct (lookup k l) eqn:E.
    - symmetry. apply In_lookup; auto. eapply Permutation_in; eauto. now apply lookup_In.
    - symmetry. apply lookup_None. apply lookup_None in E. intro H. apply E.
      eapply Permutation_in; [|exact H]. apply Permutation_sym. now apply Permutation_map.
  Qed.

  Lemma has_true : forall k l, has k l = true <-> In k (keys l).
  Proof.
    intros k l. unfold has. destruct (lookup k l) eqn:E.
    - split; auto. intros _. apply lookup_In in E. apply in_map_iff. exists (k, a). auto.
    - split; [discriminate|]. intro H. apply lookup_None in E. contradiction.
  Qed.
End Assoc.

Lemma lookup_map : forall A B (f : string -> A -> B) k (l : list (string * A)),
  lookup k (map (fun kv => (fst kv, f (fst kv) (snd kv))) l) =
  match lookup k l with Some v => Some (f k v) | None => None end.
Proof.
  induction l as [|[k' v] l IH]; simpl; auto.
  destruct (String.eqb k k') eqn:E; auto.
  apply String.eqb_eq in E. now subst.
Qed.

Lemma app_inj_len : forall A (a b c d : list A), a ++ b = c ++ d -> length a = length c -> a = c /\ b = d.
Proof.
  induction a as [|x a IH]; intros b c d E L; destruct c as [|y c]; simpl in *; try discriminate; auto.
  inversion E. inversion L. destruct (IH b c d); auto. subst. auto.
Qed.
