(** Property C74: what the printed form of an AST tells. *)
From Verif Require Import Base Scanner Syntax Resolve Ast AstSpec Demo Treeview NodeString NodeStringSpec NodeStringProofs.
Local Open Scope string_scope.
Local Open Scope list_scope.

(** C74: two ASTs with the same printed form are alike, if their names and data cannot be mistaken. *)
Theorem C74_faithful : forall quote, quotes quote -> forall n n' x, clear n -> clear n' ->
  node_string quote n = Some x -> node_string quote n' = Some x -> alike n n'.
Proof. exact string_faithful. Qed.
Print Assumptions C74_faithful.

(** ASTs that are alike have the same printed form, however their maps are ordered. *)
Theorem C74_order : forall quote n n', keyed n -> alike n n' -> node_string quote n = node_string quote n'.
Proof. intros quote n n' K A. exact (proj2 (string_order quote n K n' A)). Qed.
Print Assumptions C74_order.

(** There is always one if the leaves have texts. *)
Theorem C74_total : forall quote n, filled n -> exists x, node_string quote n = Some x.
Proof. exact string_total. Qed.
Print Assumptions C74_total.

(** A way of quoting. *)
Definition escape (c : ascii) : bytes := if Ascii.eqb c nl then bs "\n" else ["="%char; c].
Definition in_quotes (x : bytes) : bytes := """"%char :: flat_map escape x ++ [""""%char].
Lemma in_quotes_quotes : quotes in_quotes.
Proof.
  unfold quotes, in_quotes. split; [eauto|]. split.
  - intros x [I|I]; [discriminate|]. apply in_app_or in I. destruct I as [I|[I|[]]]; [|discriminate].
    apply in_flat_map in I as (c & J & I). unfold escape in I. destruct (Ascii.eqb_spec c nl) as [EC|N]; [destruct I as [I|[I|[]]]; discriminate|].
    destruct I as [I|[I|[]]]; [discriminate|congruence].
  - intros x y r r' E. injection E as E. rewrite <- !app_assoc in E. revert y E. induction x as [|c x IH]; intros [|d y] E.
    + cbn in E. injection E as ->. auto.
    + cbn [flat_map app] in E. unfold escape in E at 1. destruct (Ascii.eqb d nl); discriminate.
    + cbn [flat_map app] in E. unfold escape in E at 1. destruct (Ascii.eqb c nl); discriminate.
    + cbn [flat_map] in E. rewrite <- !app_assoc in E.
      assert (X : c = d /\ flat_map escape x ++ [""""%char] ++ r = flat_map escape y ++ [""""%char] ++ r').
      { unfold escape at 1 in E. unfold escape at 2 in E. destruct (Ascii.eqb_spec c nl) as [EC|N]; destruct (Ascii.eqb_spec d nl) as [ED|N']; cbn [app bs list_ascii_of_string] in E.
        - injection E as E. split; [congruence|auto].
        - discriminate E.
        - discriminate E.
        - injection E as E1 E. auto. }
      destruct X as [-> X]. apply IH in X as [-> ->]. auto.
Qed.

(** A branch with a list of branches, data and texts that need quotes. *)
Definition part (o : string) (i n : Z) : scanner := mkScanner (Some (mkSource (bs o) "")) i n.
Definition shown_ast (o : string) : anode := ABranch
  [("x", Many [ABranch [("b", One (ALeaf (part o 1 1))); ("a", One (ALeaf (part o 0 1)))]; ALeaf (part o 2 2)]);
   ("@rule", One (AExtra (DRule "e"))); ("", Many [ALeaf (part o 4 1); AExtra (DInt (-3))])].
Definition lines (l : list string) : bytes := flat_map (fun x => bs x ++ [nl]) l.
Lemma demo_clear : forall o, clear (shown_ast o) /\ keyed (shown_ast o).
Proof.
  intros o. assert (D1 : clear_data (DRule "e")). { intros x H. inversion H; subst. split; [discriminate|]. intros c [<-|[]] I. cbn in I. repeat destruct I as [I|I]; discriminate || contradiction. }
  assert (D2 : clear_data (DInt (-3))).
  { intros x H. apply data_text_fun in H. subst x. change (data_string (DInt (-3))) with (bs "-3"). split; [discriminate|]. intros c [<-|[<-|[]]] I; cbn in I; repeat destruct I as [I|I]; discriminate || contradiction. }
  unfold shown_ast. split; repeat match goal with
  | |- clear (ABranch _) => apply cl_branch
  | |- clear (ALeaf _) => apply cl_leaf
  | |- clear (AExtra _) => apply cl_extra
  | |- clear_kids (One _) => apply ck_one
  | |- clear_kids (Many _) => apply ck_many
  | |- keyed (ABranch _) => apply ky_branch
  | |- keyed (ALeaf _) => apply ky_leaf
  | |- keyed (AExtra _) => apply ky_extra
  | |- keyed_kids (One _) => apply kk_one
  | |- keyed_kids (Many _) => apply kk_many
  | |- clear_data _ => assumption
  | |- NoDup _ => repeat constructor; cbn; intuition discriminate
  | |- _ /\ _ => split
  | |- clear_name _ => let c := fresh in let I := fresh in let J := fresh in intros c I J; cbn in I, J; repeat destruct I as [<-|I]; try contradiction; repeat destruct J as [J|J]; (discriminate || contradiction)
  | |- forall _ _, In _ _ -> _ => let k := fresh in let c := fresh in let I := fresh in intros k c I; cbn [In] in I; repeat destruct I as [I|I]; try contradiction; injection I as <- <-
  | |- forall _, In _ _ -> _ => let m := fresh in let I := fresh in intros m I; cbn [In] in I; repeat destruct I as [I|I]; try contradiction; subst m
  end.
Qed.
Example C74_example :
  quotes in_quotes /\ clear (shown_ast "ab(c""d") /\ keyed (shown_ast "ab(c""d") /\
  (forall x, node_string in_quotes (shown_ast "ab(c""d") = Some x -> x = lines ["("; "  '': [4‣`""`, -3],"; "  @rule: e,"; "  x: ["; "    ("; "      a: 0‣a,"; "      b: 1‣b,"; "    ),"; "    2‣""=(=c"","; "  ],"] ++ bs ")") /\
  node_string in_quotes (shown_ast "ab(c""d") <> None /\
  node_string in_quotes (shown_ast "ab(c""d") <> node_string in_quotes (shown_ast "ab)c""d").
Proof.
  split; [exact in_quotes_quotes|]. split; [apply demo_clear|]. split; [apply demo_clear|]. split.
  - assert (E : node_string in_quotes (shown_ast "ab(c""d") = Some (lines ["("; "  '': [4‣`""`, -3],"; "  @rule: e,"; "  x: ["; "    ("; "      a: 0‣a,"; "      b: 1‣b,"; "    ),"; "    2‣""=(=c"","; "  ],"] ++ bs ")")) by (vm_compute; reflexivity).
    rewrite E. intros x H. now apply some_inj in H.
  - split; vm_compute; discriminate.
Qed.

(** False: the printed form tells the names. The empty name is printed like two quotes. *)
Theorem C74_names_refuted : exists n n' x, keyed n /\ keyed n' /\
  node_string in_quotes n = Some x /\ node_string in_quotes n' = Some x /\ ~ alike n n'.
Proof.
  exists (ABranch [("", One (ALeaf (part "a" 0 1)))]), (ABranch [("''", One (ALeaf (part "a" 0 1)))]), (bs "('': 0‣a)").
  assert (K : forall k, keyed (ABranch [(k, One (ALeaf (part "a" 0 1)))])).
  { intros k. apply ky_branch; [repeat constructor; cbn; auto|]. intros k' c [E|[]]. injection E as <- <-. repeat constructor. }
  split; [apply K|]. split; [apply K|]. split; [vm_compute; reflexivity|]. split; [vm_compute; reflexivity|].
  intros A. inversion A as [| |? b1 ? F P]; subst. apply Permutation_sym, Permutation_length_1_inv in P. subst b1.
  inversion F as [|? ? ? ? E]; subst. inversion E.
Qed.
Print Assumptions C74_names_refuted.

(** False: it tells data from trees. *)
Theorem C74_data_refuted : exists n n' x, keyed n /\ keyed n' /\
  node_string in_quotes n = Some x /\ node_string in_quotes n' = Some x /\ ~ alike n n'.
Proof.
  exists (ABranch [("x", One (ALeaf (part "a" 0 1)))]), (AExtra (DString "(x: 0‣a)")), (bs "(x: 0‣a)").
  split. { apply ky_branch; [repeat constructor; cbn; auto|]. intros k' c [E|[]]. injection E as <- <-. repeat constructor. }
  split; [constructor|]. split; [vm_compute; reflexivity|]. split; [vm_compute; reflexivity|]. intros A. inversion A.
Qed.
Print Assumptions C74_data_refuted.
