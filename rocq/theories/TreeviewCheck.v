(** The check for settled ASTs is right. *)
From Verif Require Import Base Scanner Syntax Resolve Ast AstSpec AstProofs Gotree Treeview TreeviewSpec TreeviewProofs TreeviewDemo.

Lemma extra_leafless : forall n, is_extra n = true -> leafless n.
Proof. intros [|s|d] E l R; try discriminate E. now inversion R. Qed.
Lemma number_name_ok : forall k, number_name k -> number_name_b k = true.
Proof. intros k (c & r & -> & I). unfold number_name_b. apply existsb_exists. exists c. split; auto. apply Ascii.eqb_refl. Qed.
Theorem settled_check : forall n, settled_b n = true -> settled n.
Proof.
  intros n. apply (anode_ind' (fun n => settled_b n = true -> settled n)
    (fun c => match c with One n => settled_b n | Many ns => forallb settled_b ns end = true -> forall n, In n (nodes c) -> settled n)); clear n.
  - constructor.
  - discriminate.
  - intros b F E. cbn [settled_b] in E. apply andb_prop in E as [E1 E2]. rewrite forallb_forall in E2. rewrite Forall_forall in F.
    apply existsb_exists in E1 as ([k c] & I & E1). cbn [fst snd] in E1. apply andb_prop in E1 as [E1 E3]. constructor.
    + exists k, c. split; auto. split.
      * intros A. apply prefix_at in A. rewrite A in E1. discriminate.
      * destruct c as [n|[|n ns]]; simpl; discriminate.
    + intros k' c' n I' IN A. specialize (E2 _ I'). cbn [fst snd] in E2. apply prefix_at in A. rewrite A in E2.
      apply extra_leafless. destruct c' as [m|ns]; simpl in IN; [destruct IN as [<-|[]]; auto|]. rewrite forallb_forall in E2. auto.
    + intros k' c' n I' IN A. specialize (E2 _ I'). cbn [fst snd] in E2. destruct (String.prefix "@" k') eqn:P; [apply prefix_at in P; contradiction|].
      apply andb_prop in E2 as [N E2]. split; [intros X; apply number_name_ok in X; rewrite X in N; discriminate|].
      eapply (F _ I'); eauto.
  - intros n H E m [<-|[]]. auto.
  - intros ns F E m I. simpl in I. rewrite forallb_forall in E. rewrite Forall_forall in F. auto.
Qed.
