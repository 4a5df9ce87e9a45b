(** Property C79: the files that imports name for the command. *)
From Verif Require Import Base Scanner Syntax Engine Resolve Compile Parse Regex Demo Ast WbnfAst Walker WalkerSpec Build Front FrontDemo ImportSpec ImportProofs
  Paths PathSpec PathProofs PathLoad Prop_Import.
Local Open Scope string_scope.
Local Open Scope list_scope.

(** C79: a cleaned path, by which loaded files are known, leads to the same place ... *)
Theorem C79_clean : forall cwd p, place cwd (clean_path p) = place cwd p.
Proof. exact clean_place. Qed.
Print Assumptions C79_clean.
(** ... and paths that lead to the same place from everywhere are the same when cleaned. *)
Theorem C79_clean_canonical : forall p q, (forall cwd, Forall named cwd -> place cwd p = place cwd q) -> clean_path p = clean_path q.
Proof. exact clean_canonical. Qed.
Print Assumptions C79_clean_canonical.

(** Joined paths lead below each other, from the first that is not empty, which alone may start at the root. *)
Theorem C79_join : forall cwd l,
  place cwd (join_paths l) =
  match filter (fun p => if string_dec p "" then false else true) l with
  | [] => cwd
  | first :: rest => fold_left below rest (place cwd first)
  end.
Proof. exact join_place. Qed.
Print Assumptions C79_join.
Example C79_join_example :
  place ["home"] (join_paths [""; "a"; ""; "../b"]) = ["home"; "b"] /\ place ["home"] (join_paths ["/a"; "/b"]) = ["a"; "b"] /\ place ["home"] (join_paths [""; ""]) = ["home"].
Proof. repeat split; reflexivity. Qed.

(** An import in the grammar file itself names a file below the directory of this file ... *)
Theorem C79_top : forall cwd grammar_file dir name file, splits grammar_file dir name ->
  place cwd (make_resolver grammar_file "" file) = below (place cwd dir) file.
Proof.
  intros cwd g d name file S. unfold make_resolver. rewrite resolve_top by apply clean_nonempty. now rewrite (dir_place _ _ _ _ S).
Qed.
Print Assumptions C79_top.
(** ... but an import in an imported file takes the importing file for a directory, and the path of this file, which already
    has the directory of the grammar file, for one below that directory. *)
Theorem C79_nested : forall cwd grammar_file dir name from file, splits grammar_file dir name -> from <> "" ->
  place cwd (make_resolver grammar_file from file) = below (below (place cwd dir) from) file.
Proof.
  intros cwd g d name from file S N. unfold make_resolver. rewrite resolve_nested; [|apply clean_nonempty|auto]. now rewrite (dir_place _ _ _ _ S).
Qed.
Print Assumptions C79_nested.
(** So if the grammar file is given without a directory and no file lies below another, then no text with an imported file that
    imports a file further down, as its siblings are, is ever loaded ... *)
Theorem C79_nested_never_loads : forall w wbnf fuel grammar_file cwd txt p t n ms m path more toks x xs,
  w_join w = join_paths -> w_clean w = clean_path -> w_resolve w = Some (make_resolver grammar_file) -> no_slash grammar_file ->
  (forall p q txt x xs, w_read w p = Some txt -> place cwd q = place cwd p ++ x :: xs -> w_read w q = None) ->
  needs w wbnf fuel txt p -> w_read w p = Some t -> reads w wbnf fuel p t n -> import_nodes n ms -> In m ms ->
  labelled "path" m = path :: more -> Forall2 (fun leaf tok => exists b, node_text leaf = COk b /\ tok = sb b) (labelled "" path) toks ->
  (forall here, below here (join_paths toks) = here ++ x :: xs) ->
  forall depth n', load_text w wbnf depth fuel txt <> COk (inr n').
Proof. intros w wbnf fuel g cwd. intros. eapply nested_never; eauto. Qed.
Print Assumptions C79_nested_never_loads.
(** ... whereas a sibling is found by going up from the importing file first. *)
Theorem C79_nested_up : forall cwd grammar_file from dir name file, no_slash grammar_file -> splits from dir name -> named name -> rooted from = false ->
  place cwd (make_resolver grammar_file from ("../" ++ file)) = below (place cwd dir) file.
Proof.
  intros cwd g from d name file NG S NN R. assert (NE : from <> "") by (destruct S as (-> & _); destruct NN as (_ & A & _); destruct d, name; try discriminate; congruence).
  rewrite (C79_nested cwd g "" g) by (repeat split; auto). change ("../" ++ file)%string with (".." ++ "/" ++ file)%string. rewrite below_slash.
  f_equal. change (place cwd "") with cwd. change (below (below cwd from) "..") with (removelast (below cwd from)).
  destruct S as (-> & NS & [->|(e & ->)]).
  - rewrite below_parts, parts_plain by auto. cbn [append fold_left]. rewrite enter_named, removelast_last by auto. reflexivity.
  - rewrite append_assoc. rewrite below_slash, (below_parts _ name), parts_plain by auto. cbn [fold_left]. rewrite enter_named, removelast_last by auto.
    assert (RE : rooted (e ++ "/")%string = false). { destruct e; cbn in *; auto. }
    rewrite place_below, RE. change "/" with ("/" ++ "")%string. rewrite below_slash. reflexivity.
Qed.
Print Assumptions C79_nested_up.

(** The files of a directory as the command sees them. *)
Definition command_desk (resolve : string -> string -> string) (files : list (string * string)) : world :=
  mkWorld regex_engine seqno plain_runtime join_paths clean_path
    (fun p => match lookup p files with Some s => Some (bs s) | None => None end) (Some resolve).
Definition siblings : list (string * string) := [("a.wbnf", ".import b.wbnf; a -> b;"); ("b.wbnf", "b -> 'x';")].
(** Expected is that an imported file can import its sibling.  Instead the file is not found, ... *)
Theorem C79_nested_refuted :
  load_text (command_desk (make_resolver "g.wbnf") siblings) wbnf_front 9 300 (bs ".import a.wbnf; c -> a;") = COk (inl NoFile) /\
  exists n, load_text (command_desk (fun from file => join_paths [dir_path from; file]) siblings) wbnf_front 9 300 (bs ".import a.wbnf; c -> a;") = COk (inr n).
Proof. split; [vm_compute; reflexivity|]. eexists. vm_compute. reflexivity. Qed.
Print Assumptions C79_nested_refuted.
(** ... and with a grammar file in a directory even the way up leads elsewhere.  A path from the root is taken for one below the
    directory of the grammar file. *)
Theorem C79_elsewhere_refuted :
  make_resolver "d/g.wbnf" "" "a.wbnf" = "d/a.wbnf" /\ make_resolver "d/g.wbnf" "d/a.wbnf" "b.wbnf" = "d/d/a.wbnf/b.wbnf" /\
  make_resolver "d/g.wbnf" "d/a.wbnf" "../b.wbnf" = "d/d/b.wbnf" /\
  make_resolver "d/g.wbnf" "" "/lib/a.wbnf" = "d/lib/a.wbnf".
Proof. repeat split; reflexivity. Qed.
Print Assumptions C79_elsewhere_refuted.

(** Examples: where paths lead, and an import within an import. *)
Example C79_example :
  place ["home"; "u"] "x/./y//../z" = ["home"; "u"; "x"; "z"] /\ clean_path "x/./y//../z" = "x/z" /\ clean_path "../../.." = "../../.." /\ clean_path "/../a/" = "/a" /\
  splits "d/g.wbnf" "d/" "g.wbnf" /\ place ["home"] (make_resolver "d/g.wbnf" "" "../a.wbnf") = ["home"; "a.wbnf"] /\
  place ["home"] (make_resolver "g.wbnf" "s/a.wbnf" "../b.wbnf") = ["home"; "s"; "b.wbnf"].
Proof.
  repeat split; try reflexivity; [|right; exists "d"; reflexivity]. unfold no_slash. cbn. intros H. repeat (destruct H as [H|H]; [discriminate|]). exact H.
Qed.
Definition command_world : world := command_desk (make_resolver "g.wbnf") siblings.
Definition tree_at (from x : string) : anode := match parse_text command_world wbnf_front 300 from (bs x) with COk (inr n) => n | _ => ABranch [] end.
Definition import_at (from x : string) : anode := hd (ABranch []) (import_list 300 KGrammar (tree_at from x)).
Example C79_never_loads_example : exists n m path toks,
  needs command_world wbnf_front 300 (bs ".import a.wbnf; c -> a;") "a.wbnf" /\
  w_read command_world "a.wbnf" = Some (bs ".import b.wbnf; a -> b;") /\ reads command_world wbnf_front 300 "a.wbnf" (bs ".import b.wbnf; a -> b;") n /\
  import_nodes n [m] /\ labelled "path" m = [path] /\
  Forall2 (fun leaf tok => exists b, node_text leaf = COk b /\ tok = sb b) (labelled "" path) toks /\
  (forall here, below here (join_paths toks) = here ++ ["b.wbnf"]) /\
  (forall p q txt x xs, w_read command_world p = Some txt -> place ["home"] q = place ["home"] p ++ x :: xs -> w_read command_world q = None).
Proof.
  exists (tree_at "a.wbnf" ".import b.wbnf; a -> b;"), (import_at "a.wbnf" ".import b.wbnf; a -> b;"),
    (match one "path" (import_at "a.wbnf" ".import b.wbnf; a -> b;") with Some p => p | None => ABranch [] end), ["b.wbnf"].
  split.
  { apply (needs_now _ _ _ _ (tree_at "" ".import a.wbnf; c -> a;") ["a.wbnf"]); [vm_compute; reflexivity| |now left].
    exists [import_at "" ".import a.wbnf; c -> a;"]. split.
    - replace [import_at "" ".import a.wbnf; c -> a;"] with (import_list 300 KGrammar (tree_at "" ".import a.wbnf; c -> a;")) by (vm_compute; reflexivity).
      apply nodes_b. vm_compute. reflexivity.
    - constructor; [|constructor]. apply names_file_spec.
      exists (match one "path" (import_at "" ".import a.wbnf; c -> a;") with Some p => p | None => ABranch [] end), ["a.wbnf"]. repeat split; vm_compute; reflexivity. }
  split; [reflexivity|]. split; [vm_compute; reflexivity|]. split.
  { replace [import_at "a.wbnf" ".import b.wbnf; a -> b;"] with (import_list 300 KGrammar (tree_at "a.wbnf" ".import b.wbnf; a -> b;")) by (vm_compute; reflexivity).
    apply nodes_b. vm_compute. reflexivity. }
  split; [vm_compute; reflexivity|]. split; [apply all_tokens_spec; vm_compute; reflexivity|]. split; [reflexivity|].
  intros p q txt x xs R P. cbn in *. destruct (String.eqb_spec q "a.wbnf") as [->|Q1].
  - exfalso. apply (f_equal (@length string)) in P. rewrite app_length in P. cbn [length] in P. change (length (place ["home"] "a.wbnf")) with 2 in P.
    destruct (String.eqb_spec p "a.wbnf") as [->|]; [change (length (place ["home"] "a.wbnf")) with 2 in P; lia|].
    destruct (String.eqb_spec p "b.wbnf") as [->|]; [change (length (place ["home"] "b.wbnf")) with 2 in P; lia|discriminate].
  - destruct (String.eqb_spec q "b.wbnf") as [->|Q2]; auto.
    exfalso. apply (f_equal (@length string)) in P. rewrite app_length in P. cbn [length] in P. change (length (place ["home"] "b.wbnf")) with 2 in P.
    destruct (String.eqb_spec p "a.wbnf") as [->|]; [change (length (place ["home"] "a.wbnf")) with 2 in P; lia|].
    destruct (String.eqb_spec p "b.wbnf") as [->|]; [change (length (place ["home"] "b.wbnf")) with 2 in P; lia|discriminate].
Qed.
