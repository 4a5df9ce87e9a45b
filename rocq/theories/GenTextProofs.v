(** The text of the generated types, read as Go. *)
From Verif Require Import Base Scanner Syntax Resolve Compile Ast WbnfAst Codegen CodegenProofs Types TypesSpec TypesProofs Getters GenText GoText GoTyping GenTextSpec.
Local Open Scope string_scope.
Local Open Scope list_scope.

(** * Reading tokens piece by piece *)
Definition lexes (s : spot) (b : bytes) (ps : list piece) (s' : spot) : Prop := pieces s b = Some (ps, s').
Lemma lexes_app : forall a b s ps s1 qs s2, lexes s a ps s1 -> lexes s1 b qs s2 -> lexes s (a ++ b) (ps ++ qs) s2.
Proof.
  unfold lexes. induction a as [|c a IH]; intros b s ps s1 qs s2 A B.
  - cbn in A. inversion A; subst. exact B.
  - cbn [pieces app] in *. destruct (step s c) as [[p s']|]; [|discriminate]. destruct (pieces s' a) as [[p' s'']|] eqn:E; [|discriminate].
    inversion A; subst. rewrite (IH b s' p' s1 qs s2 E B), app_assoc. reflexivity.
Qed.
Lemma lexes_nil : forall s, lexes s [] [] s.
Proof. reflexivity. Qed.

Lemma lexes_more : forall w x, forallb name_char w = true -> lexes (InName x) w [] (InName (rev w ++ x)).
Proof.
  unfold lexes. induction w as [|c w IH]; intros x W; [reflexivity|]. cbn [forallb] in W. apply andb_true_iff in W as [C W].
  cbn [pieces step]. rewrite C, (IH (c :: x) W). cbn [rev app]. now rewrite <- app_assoc.
Qed.
Lemma lexes_word : forall w e, spelled w = true -> w <> "" -> lexes (Between e) (bs w) [] (InName (rev (bs w))).
Proof.
  intros w e S N. unfold spelled in S. apply andb_true_iff in S as [A B]. unfold lexes.
  destruct (bs w) as [|c b] eqn:E; [destruct w; [congruence|discriminate]|]. cbn [forallb] in A. apply andb_true_iff in A as [_ A].
  cbn [pieces step]. unfold begin. rewrite B. rewrite (lexes_more b [c] A). reflexivity.
Qed.
Lemma lexes_quoted : forall w x, forallb bare_char w = true -> lexes (InQuoted x) w [] (InQuoted (rev w ++ x)).
Proof.
  unfold lexes. induction w as [|c w IH]; intros x W; [reflexivity|]. cbn [forallb] in W. apply andb_true_iff in W as [C W].
  cbn [pieces step]. rewrite C. assert (D : Ascii.eqb c dquote = false).
  { unfold bare_char in C. destruct (Ascii.eqb c dquote); [discriminate|reflexivity]. }
  rewrite D, (IH (c :: x) W). cbn [rev app]. now rewrite <- app_assoc.
Qed.

(** A text that holds declarations, between two others. *)
Definition holds (t : string) (gs : list godecl) : Prop :=
  exists ps, lexes (Between false) (bs t) ps (Between false) /\
    forall k rest gs', read_decls (40 + k) rest = Some gs' -> read_decls (length gs + (40 + k)) (ps ++ rest) = Some (gs ++ gs').
Lemma holds_app : forall a b gs hs, holds a gs -> holds b hs -> holds (a ++ b)%string (gs ++ hs).
Proof.
  intros a b gs hs (ps & A & RA) (qs & B & RB). exists (ps ++ qs). split.
  - rewrite bs_app. exact (lexes_app _ _ _ _ _ _ _ A B).
  - intros k rest gs' R. rewrite app_length, <- !app_assoc, <- Nat.add_assoc.
    replace (length hs + (40 + k)) with (40 + (length hs + k)) by lia. apply RA.
    replace (40 + (length hs + k)) with (length hs + (40 + k)) by lia. now apply RB.
Qed.
Lemma holds_blank : forall t, lexes (Between false) (bs t) [] (Between false) -> holds t [].
Proof. intros t L. exists []. split; [exact L|]. intros k rest gs' R. exact R. Qed.

Lemma holds_none : holds "" [].
Proof. apply holds_blank. reflexivity. Qed.
Lemma holds_newline : holds newline [].
Proof. apply holds_blank. reflexivity. Qed.
Lemma holds_space : holds " " [].
Proof. apply holds_blank. reflexivity. Qed.

Lemma holds_one : forall t d ps, lexes (Between false) (bs t) (ps ++ [Mark Semi]) (Between false) -> ps <> [] ->
  (forall k rest, read_decl (40 + k) (ps ++ Mark Semi :: rest) = Some (d, Mark Semi :: rest)) -> holds t [d].
Proof.
  intros t d ps L N R. exists (ps ++ [Mark Semi]). split; [exact L|]. intros k rest gs' E.
  change (length [d] + (40 + k)) with (S (40 + k)). rewrite <- app_assoc. cbn [app]. specialize (R k rest).
  destruct ps as [|p ps]; [congruence|]. cbn [app] in *. cbn [read_decls]. rewrite R. rewrite E. reflexivity.
Qed.

Lemma holds_decl : forall t d q, lexes (Between false) (bs t) q (Between false) -> q <> [] ->
  (forall k rest, read_decl (40 + k) (q ++ rest) = Some (d, Mark Semi :: rest)) -> holds t [d].
Proof.
  intros t d q L N R. exists q. split; [exact L|]. intros k rest gs' E.
  change (length [d] + (40 + k)) with (S (40 + k)). specialize (R k rest).
  destruct q as [|p q]; [congruence|]. cbn [app] in *. cbn [read_decls]. rewrite R. rewrite E. reflexivity.
Qed.

(** What follows a name of which only the letters are known. *)
Lemma lexes_end : forall w c b ps s, name_char c = false -> lexes (Between true) (c :: b) ps s -> lexes (InName (rev w)) (c :: b) (Name w :: ps) s.
Proof.
  intros w c b ps s C L. unfold lexes in *. cbn [pieces step] in *. rewrite C. unfold then_begin.
  destruct (begin true c) as [[p s']|]; [|discriminate]. rewrite rev_involutive.
  destruct (pieces s' b) as [[p' s'']|]; [|discriminate]. now inversion L.
Qed.
Lemma lexes_end_more : forall w x c b ps s, name_char c = false -> lexes (Between true) (c :: b) ps s -> lexes (InName (rev w ++ x)) (c :: b) (Name (rev x ++ w) :: ps) s.
Proof.
  intros w x c b ps s C L. rewrite <- (rev_involutive x) at 1. rewrite <- rev_app_distr. now apply lexes_end.
Qed.
Lemma lexes_close : forall w b ps s, lexes (Between true) b ps s -> lexes (InQuoted (rev w ++ [])) (dquote :: b) (Quoted w :: ps) s.
Proof.
  intros w b ps s L. unfold lexes in *. cbn [pieces step]. rewrite Ascii.eqb_refl, L. cbn [app]. now rewrite app_nil_r, rev_involutive.
Qed.
Lemma lexes_word' : forall w e, forallb name_char w = true -> match w with [] => False | c :: _ => name_start c = true end -> lexes (Between e) w [] (InName (rev w)).
Proof.
  intros w e A B. unfold lexes. destruct w as [|c b]; [contradiction|]. cbn [forallb] in A. apply andb_true_iff in A as [_ A].
  cbn [pieces step]. unfold begin. rewrite B. rewrite (lexes_more b [c] A). reflexivity.
Qed.

Lemma two_name : forall m c, name_start c = true -> two m c = None.
Proof. intros m [[] [] [] [] [] [] [] []] H; try discriminate H; destruct m; reflexivity. Qed.
Lemma lexes_mark_word : forall w m, forallb name_char w = true -> match w with [] => False | c :: _ => name_start c = true end -> lexes (InMark m) w [Mark m] (InName (rev w)).
Proof.
  intros w m A B. pose proof (lexes_word' w (closes m) A B) as L. unfold lexes in *. destruct w as [|c b]; [contradiction|].
  cbn [pieces step] in *. rewrite (two_name m c B). unfold then_begin. destruct (begin (closes m) c) as [[p s]|]; [|discriminate].
  destruct (pieces s b) as [[p' s']|]; [|discriminate]. inversion L as [[E F]]. cbn [app]. now rewrite E.
Qed.

Lemma spelled_node : forall x, spelled x = true -> forallb name_char (bs (x ++ "Node")) = true /\ match bs (x ++ "Node") with [] => False | c :: _ => name_start c = true end.
Proof.
  intros x S. unfold spelled in S. apply andb_true_iff in S as [A B]. rewrite bs_app, forallb_app, A. split; [reflexivity|].
  destruct (bs x) as [|c b]; [reflexivity|exact B].
Qed.
Lemma spelled_ref : forall x, spelled x = true -> forallb name_char (bs (x ++ "Ref")) = true /\ match bs (x ++ "Ref") with [] => False | c :: _ => name_start c = true end.
Proof.
  intros x S. unfold spelled in S. apply andb_true_iff in S as [A B]. rewrite bs_app, forallb_app, A. split; [reflexivity|].
  destruct (bs x) as [|c b]; [reflexivity|exact B].
Qed.
Lemma spelled_chars : forall x, spelled x = true -> forallb name_char (bs x) = true.
Proof. intros x S. unfold spelled in S. now apply andb_true_iff in S as [A B]. Qed.

Lemma lexes_cat : forall a b s q s', lexes s (bs a ++ bs b) q s' -> lexes s (bs (a ++ b)%string) q s'.
Proof. intros. now rewrite bs_app. Qed.

Ltac flat t := unfold t, lines, ident_name; cbn [fold_right]; rewrite ?bs_app, <- ?app_assoc.
Ltac literal := unfold lexes; vm_compute; reflexivity.
Ltac seg :=
  match goal with
  | H : forallb name_char ?w = true |- lexes (InName _) ?w _ _ => exact (lexes_more _ _ H)
  | H : forallb name_char ?w = true, B : match ?w with _ => _ end |- lexes (Between _) ?w _ _ => exact (lexes_word' _ _ H B)
  | H : forallb name_char ?w = true, B : match ?w with _ => _ end |- lexes (InMark _) ?w _ _ => exact (lexes_mark_word _ _ H B)
  | H : forallb bare_char ?w = true |- lexes (InQuoted _) ?w _ _ => exact (lexes_quoted _ _ H)
  | |- lexes (InName (rev ?w)) _ _ _ => is_var w; eapply lexes_end; [|literal]; vm_compute; reflexivity
  | |- lexes (InName (rev ?w ++ _)) _ _ _ => is_var w; eapply lexes_end_more; [|literal]; vm_compute; reflexivity
  | |- lexes (InQuoted (rev ?w ++ _)) _ _ _ => is_var w; eapply lexes_close; literal
  | _ => literal
  end.
Ltac lex := repeat (eapply lexes_app; [seg|]); try seg.

Lemma declares_one : forall T x m v ptr w y res body, w = bs T -> y = bs x -> res = go_result m ->
  (forall n, call_decl (GoFunc (Some v) ptr w y (Some res) body) n = cbind (answers m n) (fun a => COk (go_value m a))) ->
  (forall declared : bytes -> Prop, declared w -> (forall R, result_type m = Some R -> declared (bs R)) -> well_typed declared (GoFunc (Some v) ptr w y (Some res) body)) ->
  declares [DMethod T x m] [GoFunc (Some v) ptr w y (Some res) body].
Proof. intros; subst. constructor; [assumption|assumption|constructor]. Qed.

(** Types of expressions and statements. *)
Ltac ty :=
  first [ apply ty_quoted | apply ty_num | apply ty_name; reflexivity
        | apply ty_first; [reflexivity|ty|ty] | apply ty_all; [reflexivity|ty|ty] | apply ty_choice; [reflexivity|ty]
        | apply ty_append; [reflexivity|ty|ty] | apply ty_len; [reflexivity|ty]
        | apply ty_text; ty | apply ty_scanner; ty
        | apply ty_one; solve [ty] | eapply ty_field; [|solve [ty]]; assumption | eapply ty_field_ptr; [|solve [ty]]; assumption
        | apply ty_struct; [assumption|ty] | apply ty_addr; ty
        | eapply ty_assert; [constructor|]; solve [ty]
        | apply ty_both; ty | apply ty_either; ty
        | eapply ty_is_nil; [|reflexivity|solve [ty]]; solve [reflexivity|exact Logic.I]
        | eapply ty_not_nil; [|reflexivity|solve [ty]]; solve [reflexivity|exact Logic.I]
        | apply ty_equal; ty ].
Ltac thereof := repeat first [apply there_string|apply there_int|apply there_node|apply there_ptr|apply there_slice|apply there_struct; assumption].
Ltac ck :=
  first [ apply ck_return; first [left; solve [ty]|right; split; [reflexivity|split; [reflexivity|exact Logic.I]]]
        | apply ck_var; solve [thereof]
        | eapply ck_assign; [reflexivity|left; solve [ty]]
        | apply ck_if; [solve [ty]|cks]
        | eapply ck_if_one; [solve [ty]|reflexivity|solve [ty]|cks]
        | eapply ck_if_is; [constructor|solve [ty]|reflexivity|reflexivity|solve [ty]|cks]
        | eapply ck_range; [solve [ty]|reflexivity|cks]
        | eapply ck_range_map; [solve [ty]|reflexivity|cks] ]
with cks := first [apply ck_none | eapply ck_one; [ck|first [reflexivity|exact Logic.I]|cks]].
Ltac accepted := split; [assumption|]; split; [solve [thereof]|]; split; [cks|];
  match goal with |- returns ?l => exists (removelast l); eexists; reflexivity end.

(** A loop that appends something for each node. *)
Fixpoint collect (f : anode -> cres value) (l : list anode) : cres (list value) :=
  match l with
  | [] => COk []
  | n :: l' => cbind (f n) (fun v => cbind (collect f l') (fun vs => COk (v :: vs)))
  end.
Lemma loop_appends : forall X A c0 f l,
  eval [(bs "out", VSlice []); (bs "c", c0)] A = COk (VSlice (map VNode l)) ->
  (forall n acc, eval [(bs "child", VNode n); (bs "out", VSlice acc); (bs "c", c0)] X = f n) ->
  exec (SRange [bs "_"; bs "child"] A [SAssign (bs "out") (EApply (EName (bs "append")) [EName (bs "out"); X])]) [(bs "out", VSlice []); (bs "c", c0)] =
  cbind (collect f l) (fun vs => COk (Goes [(bs "out", VSlice vs); (bs "c", c0)])).
Proof.
  intros X A c0 f l EA EX. cbn [exec]. rewrite EA. cbn [cbind elements]. clear EA.
  assert (G : forall l acc,
    (fix loop (vs : list value) (e : env) {struct vs} : cres flow :=
       match vs with
       | [] => COk (Goes e)
       | w :: vs' =>
           cbind (cbind ((fix run (l0 : list stmt) (e0 : env) {struct l0} : cres flow :=
                      match l0 with
                      | [] => COk (Goes e0)
                      | s :: l' => cbind (exec s e0) (fun r => match r with Goes e' => run l' e' | Leaves v => COk (Leaves v) end)
                      end) [SAssign (bs "out") (EApply (EName (bs "append")) [EName (bs "out"); X])] ((bs "child", w) :: e))
                  (fun r => match r with Goes e' => COk (Goes (outside e e')) | Leaves v => COk (Leaves v) end))
             (fun r => match r with Goes e' => loop vs' e' | Leaves v => COk (Leaves v) end)
       end) (map VNode l) [(bs "out", VSlice acc); (bs "c", c0)] =
    cbind (collect f l) (fun vs => COk (Goes [(bs "out", VSlice (acc ++ vs)); (bs "c", c0)]))).
  { clear l. induction l as [|n l IH]; intros acc.
    - cbn. now rewrite app_nil_r.
    - cbn [map collect].
      assert (EV : exec (SAssign (bs "out") (EApply (EName (bs "append")) [EName (bs "out"); X])) [(bs "child", VNode n); (bs "out", VSlice acc); (bs "c", c0)] =
        cbind (f n) (fun v => COk (Goes [(bs "child", VNode n); (bs "out", VSlice (acc ++ [v])); (bs "c", c0)]))).
      { cbn [exec eval]. change (find (bs "append") _) with (@None value). change (find (bs "out") _) with (Some (VSlice acc)). cbn [cbind]. rewrite EX. destruct (f n); reflexivity. }
      rewrite EV. destruct (f n) as [v| |]; [|reflexivity|reflexivity]. cbn [cbind].
      change (outside [(bs "out", VSlice acc); (bs "c", c0)] [(bs "child", VNode n); (bs "out", VSlice (acc ++ [v])); (bs "c", c0)])
        with [(bs "out", VSlice (acc ++ [v])); (bs "c", c0)].
      rewrite IH. destruct (collect f l) as [vs| |]; cbn [cbind]; [|reflexivity|reflexivity]. now rewrite <- app_assoc. }
  exact (G l []).
Qed.

(** A method with such a loop. *)
Lemma loop_method : forall X A t w y res n f l,
  eval [(bs "out", VSlice []); (bs "c", VStruct w (VNode n))] A = COk (VSlice (map VNode l)) ->
  (forall m acc, eval [(bs "child", VNode m); (bs "out", VSlice acc); (bs "c", VStruct w (VNode n))] X = f m) ->
  call_decl (GoFunc (Some (bs "c")) false w y (Some res)
    [SVar (bs "out") (TySlice t); SRange [bs "_"; bs "child"] A [SAssign (bs "out") (EApply (EName (bs "append")) [EName (bs "out"); X])]; SReturn (EName (bs "out"))]) n =
  cbind (collect f l) (fun vs => COk (VSlice vs)).
Proof.
  intros X A t w y res n f l EA EX. unfold call_decl. cbn [exec_all]. change (exec (SVar (bs "out") (TySlice t)) ?e) with (COk (Goes ((bs "out", VSlice []) :: e))).
  cbn [cbind]. rewrite (loop_appends X A (VStruct w (VNode n)) f l EA EX). destruct (collect f l) as [vs| |]; reflexivity.
Qed.
Lemma collect_texts : forall g f l, (forall n, f n = cbind (g n) (fun t => COk (VText t))) ->
  collect f l = cbind (texts_of g l) (fun ts => COk (map VText ts)).
Proof.
  intros g f l F. induction l as [|n l IH]; [reflexivity|]. cbn [collect texts_of]. rewrite F, IH.
  destruct (g n); [|reflexivity|reflexivity]. cbn [cbind]. destruct (texts_of g l); reflexivity.
Qed.
Lemma collect_nodes : forall f h l, (forall n, f n = COk (h n)) -> collect f l = COk (map h l).
Proof. intros f h l F. induction l as [|n l IH]; [reflexivity|]. cbn [collect map]. rewrite F, IH. reflexivity. Qed.

Ltac method_text t E := eapply holds_decl; [flat t; E; lex| |]; [discriminate|]; intros k rest; vm_compute; reflexivity.

Section Texts.
  Variable camel : string -> string.

  Lemma choice_ok : forall p, spelled (go_name camel p) = true ->
    exists gs, holds (choice_text camel p) gs /\ declares [DMethod (go_type_name camel p) "Choice" MChoice] gs.
  Proof.
    intros p P. destruct (spelled_node _ P) as [A B]. fold (go_type_name camel p) in A, B. 
    remember (bs (go_type_name camel p)) as w eqn:Ew.
    eexists [_]. split.
    - method_text choice_text ltac:(rewrite <- ?Ew).
    - apply declares_one; [exact Ew|reflexivity|reflexivity| |intros dc DW DR; accepted]. intros n. cbv -[choice_of]. destruct (choice_of (Some n)); reflexivity.
  Qed.

  Lemma back_ref_ok : forall x p, spelled (go_name camel x) = true -> spelled (go_name camel p) = true -> quotable x = true ->
    exists gs, holds (back_ref_text camel x p) gs /\ declares [DMethod (go_type_name camel p) (go_name camel x ++ "Ref") (MRef x)] gs.
  Proof.
    intros x p X P Q. destruct (spelled_node _ P) as [A B]. fold (go_type_name camel p) in A, B. destruct (spelled_ref _ X) as [A' B'].
    remember (bs (go_type_name camel p)) as w eqn:Ew. remember (bs (go_name camel x ++ "Ref")) as r eqn:Er. unfold quotable in Q.
    assert (SB : sb (bs x) = x) by apply sb_bs. remember (bs x) as q eqn:Eq.
    eexists [_]. split.
    - eapply holds_decl; [unfold back_ref_text; change (go_name camel x ++ "Ref() ast.Node { return ast.First(c.Node, " ++ quote_mark ++ x ++ quote_mark ++ ") }")%string
        with (go_name camel x ++ "Ref" ++ "() ast.Node { return ast.First(c.Node, " ++ quote_mark ++ x ++ quote_mark ++ ") }")%string| |].
      + unfold lines. cbn [fold_right]. rewrite ?bs_app, <- ?app_assoc. rewrite (app_assoc (bs (go_name camel x))), <- bs_app. rewrite <- ?Ew, <- ?Er, <- ?Eq. lex.
      + discriminate.
      + intros k rest. vm_compute. reflexivity.
    - apply declares_one; [exact Ew|exact Er|reflexivity| |intros dc DW DR; accepted]. intros n. cbv -[first_of sb]. rewrite SB. destruct (first_of (Some n) x); reflexivity.
  Qed.

  Lemma one_named_ok : forall x p, spelled (go_name camel x) = true -> spelled (go_name camel p) = true -> quotable x = true -> x <> "" ->
    exists gs, holds (one_named_text camel x p) gs /\ declares [DMethod (go_type_name camel p) ("One" ++ go_name camel x) (MOne x None)] gs.
  Proof.
    intros x p X P Q N. destruct (spelled_node _ P) as [A B]. fold (go_type_name camel p) in A, B. apply spelled_chars in X.
    unfold quotable in Q. assert (SB : sb (bs x) = x) by apply sb_bs.
    assert (Er : bs ("One" ++ go_name camel x) = bs "One" ++ bs (go_name camel x)) by apply bs_app.
    remember (bs (go_type_name camel p)) as w eqn:Ew. remember (bs (go_name camel x)) as r eqn:Erx. remember (bs x) as q eqn:Eq.
    eexists [_]. split.
    - method_text one_named_text ltac:(rewrite <- ?Ew, <- ?Erx, <- ?Eq).
    - apply declares_one; [exact Ew|symmetry; exact Er|reflexivity| |intros dc DW DR; accepted]. intros n. 
      assert (NX : String.eqb x "" = false) by now apply String.eqb_neq.
      unfold answers. rewrite NX. unfold one_named, text_of. cbv -[first_of sb node_text]. rewrite SB.
      destruct (first_of (Some n) x) as [m|]; [|reflexivity]. change (sb []) with ""%string. destruct (first_of (Some m) "") as [t|]; [|reflexivity].
      destruct (node_text t); reflexivity.
  Qed.

  Lemma all_named_ok : forall x p, spelled (go_name camel x) = true -> spelled (go_name camel p) = true -> quotable x = true -> x <> "" ->
    exists gs, holds (all_named_text camel x p) gs /\ declares [DMethod (go_type_name camel p) ("All" ++ go_name camel x) (MAll x None)] gs.
  Proof.
    intros x p X P Q N. destruct (spelled_node _ P) as [A B]. fold (go_type_name camel p) in A, B. apply spelled_chars in X.
    unfold quotable in Q. assert (SB : sb (bs x) = x) by apply sb_bs.
    assert (Er : bs ("All" ++ go_name camel x) = bs "All" ++ bs (go_name camel x)) by apply bs_app.
    remember (bs (go_type_name camel p)) as w eqn:Ew. remember (bs (go_name camel x)) as r eqn:Erx. remember (bs x) as q eqn:Eq.
    eexists [_]. split.
    - method_text all_named_text ltac:(rewrite <- ?Ew, <- ?Erx, <- ?Eq).
    - apply declares_one; [exact Ew|symmetry; exact Er|reflexivity| |intros dc DW DR; accepted]. intros n.
      assert (NX : String.eqb x "" = false) by now apply String.eqb_neq.
      set (g := fun c : anode => text_of (first_of (Some c) "")).
      transitivity (cbind (collect (fun c => cbind (g c) (fun t => COk (VText t))) (all_of (Some n) x)) (fun vs => COk (VSlice vs))).
      + refine (loop_method _ _ _ _ _ _ n _ (all_of (Some n) x) _ _).
        * cbv -[all_of sb map]. rewrite SB. reflexivity.
        * intros m acc. unfold g, text_of. cbv -[first_of node_text sb]. change (sb []) with ""%string. destruct (first_of (Some m) "") as [t|]; [|reflexivity]. destruct (node_text t); reflexivity.
      + rewrite (collect_texts g _ _ (fun n => eq_refl)). unfold answers. rewrite NX. fold g. destruct (texts_of g (all_of (Some n) x)); reflexivity.
  Qed.

  Lemma one_token_ok : forall p, spelled (go_name camel p) = true ->
    exists gs, holds (one_token_text camel p) gs /\ declares [DMethod (go_type_name camel p) ("One" ++ "Token") (MOne "" None)] gs.
  Proof.
    intros p P. destruct (spelled_node _ P) as [A B]. fold (go_type_name camel p) in A, B. remember (bs (go_type_name camel p)) as w eqn:Ew.
    eexists [_]. split.
    - method_text one_token_text ltac:(rewrite <- ?Ew).
    - apply declares_one; [exact Ew|reflexivity|reflexivity| |intros dc DW DR; accepted]. intros n.
      unfold answers. rewrite String.eqb_refl. unfold one_token. cbv -[first_of sb node_text Z.of_nat length]. change (sb []) with ""%string.
      destruct (first_of (Some n) "") as [m|].
      + destruct (node_text m); reflexivity.
      + destruct n as [b|tx|e]; [|reflexivity|reflexivity].
        destruct b as [|[k c] [|kc b]].
        * reflexivity.
        * destruct c as [m|ms]; [|reflexivity]. change (sb []) with ""%string. destruct (first_of (Some m) "") as [t|]; [|reflexivity]. destruct (node_text t); reflexivity.
        * destruct kc. cbn [length]. rewrite !Nat2Z.inj_succ. 
          destruct (Z.succ (Z.succ (Z.of_nat (length b)))) eqn:EZ; destruct c; [reflexivity|reflexivity| | |reflexivity|reflexivity]; destruct p0; try reflexivity; lia.
  Qed.

  Lemma all_token_ok : forall p, spelled (go_name camel p) = true ->
    exists gs, holds (all_token_text camel p) gs /\ declares [DMethod (go_type_name camel p) ("All" ++ "Token") (MAll "" None)] gs.
  Proof.
    intros p P. destruct (spelled_node _ P) as [A B]. fold (go_type_name camel p) in A, B. remember (bs (go_type_name camel p)) as w eqn:Ew.
    eexists [_]. split.
    - method_text all_token_text ltac:(rewrite <- ?Ew).
    - apply declares_one; [exact Ew|reflexivity|reflexivity| |intros dc DW DR; accepted]. intros n.
      transitivity (cbind (collect (fun c => cbind (node_text c) (fun t => COk (VText t))) (all_of (Some n) "")) (fun vs => COk (VSlice vs))).
      + refine (loop_method _ _ _ _ _ _ n _ (all_of (Some n) "") _ _).
        * cbv -[all_of sb map]. reflexivity.
        * intros m acc. cbv -[node_text]. destruct (node_text m); reflexivity.
      + rewrite (collect_texts node_text _ _ (fun n => eq_refl)). unfold answers. rewrite String.eqb_refl.
        change (fun c : anode => node_text c) with node_text. destruct (texts_of node_text (all_of (Some n) "")); reflexivity.
  Qed.

  Lemma one_rule_ok : forall x p rt, spelled (go_name camel x) = true -> spelled (go_name camel p) = true -> spelled (go_name camel rt) = true -> quotable x = true ->
    exists gs, holds (one_rule_text camel x p rt) gs /\ declares [DMethod (go_type_name camel p) ("One" ++ go_name camel x) (MOne x (Some (go_type_name camel rt)))] gs.
  Proof.
    intros x p rt X P R Q. destruct (spelled_node _ P) as [A B]. fold (go_type_name camel p) in A, B. destruct (spelled_node _ R) as [C D]. fold (go_type_name camel rt) in C, D.
    apply spelled_chars in X. unfold quotable in Q. assert (SB : sb (bs x) = x) by apply sb_bs.
    assert (Er : bs ("One" ++ go_name camel x) = bs "One" ++ bs (go_name camel x)) by apply bs_app.
    remember (bs (go_type_name camel p)) as w eqn:Ew. remember (bs (go_type_name camel rt)) as v eqn:Ev. remember (bs (go_name camel x)) as r eqn:Erx. remember (bs x) as q eqn:Eq.
    eexists [_]. split.
    - method_text one_rule_text ltac:(rewrite <- ?Ew, <- ?Ev, <- ?Erx, <- ?Eq).
    - apply declares_one; [exact Ew|symmetry; exact Er|cbn [go_result]; rewrite <- Ev; reflexivity| |intros dc DW DR; pose proof (DR _ eq_refl) as DV; rewrite <- Ev in DV; accepted]. intros n. unfold answers. cbn [cbind].
      unfold go_value. rewrite <- Ev. cbv -[first_of sb]. rewrite SB. destruct (first_of (Some n) x); reflexivity.
  Qed.

  Lemma all_rule_ok : forall x p rt, spelled (go_name camel x) = true -> spelled (go_name camel p) = true -> spelled (go_name camel rt) = true -> quotable x = true ->
    exists gs, holds (all_rule_text camel x p rt) gs /\ declares [DMethod (go_type_name camel p) ("All" ++ go_name camel x) (MAll x (Some (go_type_name camel rt)))] gs.
  Proof.
    intros x p rt X P R Q. destruct (spelled_node _ P) as [A B]. fold (go_type_name camel p) in A, B. destruct (spelled_node _ R) as [C D]. fold (go_type_name camel rt) in C, D.
    apply spelled_chars in X. unfold quotable in Q. assert (SB : sb (bs x) = x) by apply sb_bs.
    assert (Er : bs ("All" ++ go_name camel x) = bs "All" ++ bs (go_name camel x)) by apply bs_app.
    remember (bs (go_type_name camel p)) as w eqn:Ew. remember (bs (go_type_name camel rt)) as v eqn:Ev. remember (bs (go_name camel x)) as r eqn:Erx. remember (bs x) as q eqn:Eq.
    eexists [_]. split.
    - method_text all_rule_text ltac:(rewrite <- ?Ew, <- ?Ev, <- ?Erx, <- ?Eq).
    - apply declares_one; [exact Ew|symmetry; exact Er|cbn [go_result]; rewrite <- Ev; reflexivity| |intros dc DW DR; pose proof (DR _ eq_refl) as DV; rewrite <- Ev in DV; accepted]. intros n. unfold answers. cbn [cbind].
      unfold go_value. rewrite <- Ev.
      transitivity (cbind (collect (fun m => COk (VStruct v (VNode m))) (all_of (Some n) x)) (fun vs => COk (VSlice vs))).
      + refine (loop_method _ _ _ _ _ _ n _ (all_of (Some n) x) _ _).
        * cbv -[all_of sb map]. rewrite SB. reflexivity.
        * intros m acc. reflexivity.
      + rewrite (collect_nodes _ (fun m => VStruct v (VNode m))) by reflexivity. reflexivity.
  Qed.

  Lemma lines_app : forall a b, lines (a ++ b) = (lines a ++ lines b)%string.
  Proof.
    assert (AS : forall x y z, (x ++ (y ++ z) = (x ++ y) ++ z)%string).
    { induction x as [|c x IH]; intros y z; [reflexivity|]. cbn. now rewrite IH. }
    induction a as [|x a IH]; intros b; [reflexivity|]. cbn [app lines fold_right]. fold (lines (a ++ b)). fold (lines a). rewrite IH. now rewrite !AS.
  Qed.

  Lemma type_line_ok : forall T pre post, forallb name_char (bs T) = true -> match bs T with [] => False | c :: _ => name_start c = true end ->
    In (pre, post) [("", " struct { ast.Node }"); ("", " struct { ast.Node}")] -> holds (lines [pre ++ "type " ++ T ++ post])%string [GoType (bs T)].
  Proof.
    intros T pre post A B I. remember (bs T) as w eqn:Ew.
    destruct I as [I|[I|[]]]; inversion I; subst pre post.
    - eapply holds_decl; [flat lines; rewrite <- Ew; lex| |]; [discriminate|]; intros k rest; vm_compute; reflexivity.
    - eapply holds_decl; [flat lines; rewrite <- Ew; lex| |]; [discriminate|]; intros k rest; vm_compute; reflexivity.
  Qed.
  Lemma walkable_ok : forall T pre, forallb name_char (bs T) = true -> match bs T with [] => False | c :: _ => name_start c = true end ->
    pre = "func (" \/ pre = " func (" -> holds (lines [pre ++ T ++ ") isWalkableType() {}"])%string [GoFunc None false (bs T) (bs "isWalkableType") None []].
  Proof.
    intros T pre A B I. remember (bs T) as w eqn:Ew. 
    destruct I as [-> | ->].
    - eapply holds_decl; [flat lines; rewrite <- Ew; lex| |]; [discriminate|]; intros k rest; vm_compute; reflexivity.
    - eapply holds_decl; [flat lines; rewrite <- Ew; lex| |]; [discriminate|]; intros k rest; vm_compute; reflexivity.
  Qed.

  Lemma declares_app : forall a b gs hs, declares a gs -> declares b hs -> declares (a ++ b) (gs ++ hs).
  Proof. intros a b gs hs A B. induction A; cbn [app]; [exact B|now constructor|now constructor]. Qed.

  Lemma basic_ok : forall p, spelled (go_name camel p) = true ->
    exists gs, holds (basic_text camel p) gs /\ declares (type_decls camel (GBasic p)) gs.
  Proof.
    intros p P. destruct (spelled_node _ P) as [A B]. fold (go_type_name camel p) in A, B.
    assert (S : exists gs, holds (lines ["func (c *" ++ go_type_name camel p ++ ") String() string {";
           tab ++ "if c == nil || c.Node == nil { return " ++ quote_mark ++ quote_mark ++ " }"; tab ++ "return c.Node.Scanner().String()"; "}"])%string gs /\
           declares [DMethod (go_type_name camel p) "String" MString] gs).
    { remember (bs (go_type_name camel p)) as w eqn:Ew. eexists [_]. split.
      - eapply holds_decl; [flat lines; rewrite <- Ew; lex| |]; [discriminate|]; intros k rest; vm_compute; reflexivity.
      - apply declares_one; [exact Ew|reflexivity|reflexivity| |intros dc DW DR; accepted]. intros n. cbv -[node_text]. destruct (node_text n); reflexivity. }
    destruct S as (gs & H & D).
    exists (GoType (bs (go_type_name camel p)) :: GoFunc None false (bs (go_type_name camel p)) (bs "isWalkableType") None [] :: gs). split.
    - change (basic_text camel p) with (newline ++ lines ([("" ++ "type " ++ go_type_name camel p ++ " struct { ast.Node }")%string] ++ [("func (" ++ go_type_name camel p ++ ") isWalkableType() {}")%string] ++
        ["func (c *" ++ go_type_name camel p ++ ") String() string {";
           tab ++ "if c == nil || c.Node == nil { return " ++ quote_mark ++ quote_mark ++ " }"; tab ++ "return c.Node.Scanner().String()"; "}"]%string))%string.
      rewrite !lines_app. apply (holds_app _ _ [] _ holds_newline).
      apply (holds_app _ _ [_]); [apply type_line_ok; [exact A|exact B|now left]|].
      apply (holds_app _ _ [_]); [apply walkable_ok; [exact A|exact B|now left]|exact H].
    - cbn [type_decls]. constructor. exact D.
  Qed.

  (** Both getters of a count. *)
  Lemma counted_ok : forall c one all T s x r, (exists gs, holds one gs /\ declares [DMethod T ("One" ++ s) (MOne x r)] gs) -> (exists gs, holds all gs /\ declares [DMethod T ("All" ++ s) (MAll x r)] gs) ->
    exists gs, holds (counted c one all) gs /\ declares (getters T s x r c) gs.
  Proof.
    intros c one all T s x r (gs & H & D) (hs & H' & D'). unfold counted, getters.
    assert (Z : forall (b : bool) t ds ks, holds t ks -> declares ds ks -> holds (if b then t else ""%string) (if b then ks else []) /\ declares (if b then ds else []) (if b then ks else [])).
    { intros [|] t ds ks X Y; split; auto using holds_none. constructor. }
    destruct (Z (t_one c) _ _ _ H D) as [E F]. destruct (Z (t_all c) _ _ _ H' D') as [E' F'].
    eexists. split; [exact (holds_app _ _ _ _ E E')|exact (declares_app _ _ _ _ F F')].
  Qed.
  Lemma child_ok : forall c, child_fits camel c = true -> exists gs, holds (child_text camel c) gs /\ declares (child_decls camel c) gs.
  Proof.
    intros [p|n p|n p|n p t|p t|n p r t] F; cbn [child_fits] in F; rewrite ?andb_true_iff in F; cbn [child_text child_decls].
    - now apply choice_ok.
    - destruct F as [[A B] C]. apply counted_ok; [now apply one_rule_ok|now apply all_rule_ok].
    - destruct F as [[A B] C]. now apply back_ref_ok.
    - destruct F as [[[A B] C] D]. apply negb_true_iff, String.eqb_neq in D. apply counted_ok; [now apply one_named_ok|now apply all_named_ok].
    - apply counted_ok; [now apply one_token_ok|now apply all_token_ok].
    - destruct F as [[[A B] C] D]. apply counted_ok; [now apply one_rule_ok|now apply all_rule_ok].
  Qed.
  Lemma children_ok : forall cs, (forall c, In c cs -> child_fits camel c = true) ->
    exists gs, holds (join_lines (map (child_text camel) cs)) gs /\ declares (flat_map (child_decls camel) cs) gs.
  Proof.
    induction cs as [|c cs IH]; intros F.
    - exists []. split; [exact holds_none|constructor].
    - destruct (child_ok c (F c (or_introl eq_refl))) as (gs & H & D). destruct (IH (fun c I => F c (or_intror I))) as (hs & H' & D').
      exists (gs ++ hs). split; [|exact (declares_app _ _ _ _ D D')].
      destruct cs as [|c' cs].
      + cbn in D'. inversion D'; subst. rewrite app_nil_r. exact H.
      + change (join_lines (map (child_text camel) (c :: c' :: cs))) with (child_text camel c ++ newline ++ join_lines (map (child_text camel) (c' :: cs)))%string.
        apply holds_app; [exact H|]. exact (holds_app _ _ [] _ holds_newline H').
  Qed.
  Lemma type_ok : forall t, type_fits camel t = true -> exists gs, holds (type_text camel t) gs /\ declares (type_decls camel t) gs.
  Proof.
    intros [n|n cs] F; cbn [type_fits] in F.
    - now apply basic_ok.
    - apply andb_true_iff in F as [P C]. rewrite forallb_forall in C. destruct (spelled_node _ P) as [A B]. fold (go_type_name camel n) in A, B.
      destruct (children_ok (sort_children cs)) as (gs & H & D).
      { intros c I. apply C. now apply sort_children_in. }
      exists (GoType (bs (go_type_name camel n)) :: GoFunc None false (bs (go_type_name camel n)) (bs "isWalkableType") None [] :: gs). split.
      + cbn [type_text]. unfold rule_text.
        change ["type " ++ go_type_name camel n ++ " struct { ast.Node}"; " func (" ++ go_type_name camel n ++ ") isWalkableType() {}"]%string
          with (["" ++ "type " ++ go_type_name camel n ++ " struct { ast.Node}"]%string ++ [" func (" ++ go_type_name camel n ++ ") isWalkableType() {}"]%string).
        rewrite lines_app. apply (holds_app _ _ [_; _] gs); [|exact H].
        apply (holds_app _ _ [_] [_]); [apply type_line_ok; [exact A|exact B|right; now left]|apply walkable_ok; [exact A|exact B|now right]].
      + cbn [type_decls]. constructor. exact D.
  Qed.
  Lemma fit_there : forall tm k t, names_fit camel tm = true -> lookup k tm = Some t -> type_fits camel t = true.
  Proof.
    unfold names_fit. induction tm as [|[k' t'] tm IH]; intros k t F L; [discriminate|]. cbn [forallb snd] in F. apply andb_true_iff in F as [A B].
    cbn [lookup] in L. destruct (String.eqb k k'); [inversion L; subst; exact A|exact (IH _ _ B L)].
  Qed.
  Lemma types_text_ok : forall tm, names_fit camel tm = true -> exists gs, go_source (bs (types_text camel tm)) gs /\ declares (decls camel tm) gs.
  Proof.
    intros tm F. assert (G : exists gs, holds (types_text camel tm) gs /\ declares (decls camel tm) gs).
    { unfold types_text, decls. induction (sort_strings (map fst tm)) as [|k l IH]; [exists []; split; [exact holds_none|constructor]|].
      destruct IH as (gs & H & D). cbn [fold_right flat_map].
      assert (T : exists hs, holds (match lookup k tm with Some t => type_text camel t | None => "" end) hs /\ declares (match lookup k tm with Some t => type_decls camel t | None => [] end) hs).
      { destruct (lookup k tm) as [t|] eqn:E; [exact (type_ok t (fit_there _ _ _ F E))|exists []; split; [exact holds_none|constructor]]. }
      destruct T as (hs & H' & D'). exists (hs ++ gs). split; [|exact (declares_app _ _ _ _ D' D)].
      apply (holds_app _ _ [] _ holds_space). apply holds_app; [exact H'|]. exact (holds_app _ _ [] _ holds_space H). }
    destruct G as (gs & (ps & L & R) & D). exists gs. split; [|exact D]. exists ps, (length gs + (40 + 0)). split.
    - unfold go_tokens. assert (E : lexes (Between false) (bs (types_text camel tm) ++ [nl]) (ps ++ []) (Between false)) by (apply (lexes_app _ _ _ _ _ _ _ L); reflexivity).
      unfold lexes in E. rewrite E. now rewrite app_nil_r.
    - specialize (R 0 [] [] eq_refl). now rewrite !app_nil_r in R.
  Qed.
End Texts.
