(** The text of the walk functions, read as Go. *)
From Verif Require Import Base Scanner Syntax Resolve Compile Ast WbnfAst Walker Codegen CodegenProofs Types TypesProofs Getters GenText GoText GenTextSpec GenTextProofs WalkText GoWalk WalkTextSpec.
From Coq Require Import Permutation.
Local Open Scope string_scope.
Local Open Scope list_scope.

Definition says (t : string) (ss : list wstmt) : Prop :=
  exists ps, lexes (Between false) (bs t) ps (Between false) /\
    forall k rest ss' r, read_ws (40 + k) rest = Some (ss', r) -> read_ws (length ss + (40 + k)) (ps ++ rest) = Some (ss ++ ss', r).
Lemma says_app : forall a b ss ts, says a ss -> says b ts -> says (a ++ b)%string (ss ++ ts).
Proof.
  intros a b gs hs (ps & A & RA) (qs & B & RB). exists (ps ++ qs). split.
  - rewrite bs_app. exact (lexes_app _ _ _ _ _ _ _ A B).
  - intros k rest gs' r R. rewrite app_length, <- !app_assoc, <- Nat.add_assoc.
    replace (length hs + (40 + k)) with (40 + (length hs + k)) by lia. apply RA.
    replace (40 + (length hs + k)) with (length hs + (40 + k)) by lia. now apply RB.
Qed.
Lemma says_none : says "" [].
Proof. exists []. split; [reflexivity|]. intros k rest ss' r R. exact R. Qed.
Lemma read_ws_name : forall f x q, read_ws (S f) (Name x :: q) =
  match read_w f (Name x :: q) with
  | Some (s, Mark Semi :: r) => match read_ws f r with Some (ss, r') => Some (s :: ss, r') | None => None end
  | Some (s, Mark RBrace :: r) => Some ([s], r)
  | _ => None
  end.
Proof. reflexivity. Qed.
Lemma says_one : forall t s q, lexes (Between false) (bs t) q (Between false) -> match q with Name _ :: _ => True | _ => False end ->
  (forall k rest, read_w (40 + k) (q ++ rest) = Some (s, Mark Semi :: rest)) -> says t [s].
Proof.
  intros t s q L N R. exists q. split; [exact L|]. intros k rest ss' r E. destruct q as [|[x| | |] q]; try contradiction.
  change (length [s] + (40 + k)) with (S (40 + k)). specialize (R k rest). cbn [app] in *.
  rewrite read_ws_name, R, E. reflexivity.
Qed.

(** * The statements *)
Definition nm (x : string) : expr := EName (bs x).
Definition msg (x m : string) : expr := EApply (EDot (nm x) (bs m)) [].
Definition not_nil (x : string) : expr := EDiffer (nm x) (nm "nil").
Definition react_stmt : wstmt := WIf None (msg "s" "ExitNode") [WReturn (nm "nil")] [WIf None (msg "s" "Abort") [WReturn (nm "s")] []].
Definition hook_stmt (f : bytes) (x : string) : wstmt :=
  WIf (Some (bs "fn", EDot (nm "w") f)) (not_nil "fn") [WIf (Some (bs "s", EApply (nm "fn") [nm x])) (not_nil "s") [react_stmt] []] [].
Definition visit_stmt (g : bytes) (many : bool) (R : bytes) (walked : bool) : wstmt :=
  let inner := if walked then WIf (Some (bs "s", EApply (EDot (nm "w") (bs "Walk" ++ R)) [nm "child"])) (not_nil "s") [react_stmt] []
               else hook_stmt (bs "Enter" ++ R) "child" in
  if many then WRange (bs "child") (EApply (EDot (nm "node") (bs "All" ++ g)) []) [inner]
  else WIf (Some (bs "child", EApply (EDot (nm "node") (bs "One" ++ g)) [])) (not_nil "child") [WDeref (bs "child") (bs "child"); inner] [].
Definition exit_stmt (f : bytes) : wstmt :=
  WIf (Some (bs "fn", EDot (nm "w") f)) (not_nil "fn")
    [WIf (Some (bs "s", EApply (nm "fn") [nm "node"])) (EBoth (not_nil "s") (msg "s" "Abort")) [WReturn (nm "s")] []] [].

Lemma visit_says : forall g many R walked, forallb name_char (bs g) = true -> forallb name_char (bs R) = true ->
  says (visit_text g many R walked) [visit_stmt (bs g) many (bs R) walked].
Proof.
  intros g many R walked G H. remember (bs g) as w eqn:Ew. remember (bs R) as v eqn:Ev.
  destruct many, walked; unfold visit_text; (eapply says_one; [rewrite ?bs_app, <- ?app_assoc, <- ?Ew, <- ?Ev; lex|vm_compute; constructor|]; intros k rest; vm_compute; reflexivity).
Qed.
Lemma head_says : forall T t, forallb name_char (bs T) = true ->
  t = (tab ++ "if fn := w.Enter" ++ T ++ "; fn != nil { " ++ newline ++ tab ++ tab ++ "if s := fn(node); s != nil { " ++ react_text ++ newline ++ "}" ++ newline)%string ->
  says t [hook_stmt (bs "Enter" ++ bs T) "node"].
Proof.
  intros T t H ->. remember (bs T) as w eqn:Ew.
  eapply says_one; [rewrite ?bs_app, <- ?app_assoc, <- ?Ew; lex|vm_compute; constructor|]. intros k rest. vm_compute. reflexivity.
Qed.
Lemma visits_say : forall vs, Forall (fun v : string * bool * string * bool => match v with (g, _, R, _) => forallb name_char (bs g) = true /\ forallb name_char (bs R) = true end) vs ->
  says (fold_right (fun v s => match v with (g, m, R, k) => visit_text g m R k ++ s end) "" vs)%string (map (fun v : string * bool * string * bool => match v with (g, m, R, k) => visit_stmt (bs g) m (bs R) k end) vs).
Proof.
  induction vs as [|[[[g m] R] k] vs IH]; intros F; [exact says_none|]. inversion F as [|x l GH F' E]; subst. destruct GH as [G H]. cbn [fold_right map].
  exact (says_app _ _ [_] _ (visit_says g m R k G H) (IH F')).
Qed.
Lemma tail_reads : forall T t, forallb name_char (bs T) = true ->
  t = (newline ++ tab ++ "if fn := w.Exit" ++ T ++ "; fn != nil { if s := fn(node); s != nil && s.Abort() { return s } }" ++ newline ++ tab ++ "return nil" ++ newline ++ "}" ++ newline)%string ->
  exists ps, lexes (Between false) (bs t) ps (Between false) /\ forall k rest, read_ws (40 + k) (ps ++ rest) = Some ([exit_stmt (bs "Exit" ++ bs T); WReturn (nm "nil")], Mark Semi :: rest).
Proof.
  intros T t H ->. remember (bs T) as w eqn:Ew. eexists. split; [rewrite ?bs_app, <- ?app_assoc, <- ?Ew; lex|]. intros k rest. vm_compute. reflexivity.
Qed.
Lemma front_lexes : forall T t, forallb name_char (bs T) = true -> match bs T with [] => False | c :: _ => name_start c = true end ->
  t = ("func (w WalkerOps) Walk" ++ T ++ "(node " ++ T ++ ") Stopper {" ++ newline)%string ->
  lexes (Between false) (bs t) [Name (bs "func"); Mark LPar; Name (bs "w"); Name (bs "WalkerOps"); Mark RPar; Name (bs "Walk" ++ bs T); Mark LPar; Name (bs "node"); Name (bs T); Mark RPar; Name (bs "Stopper"); Mark LBrace] (Between false).
Proof.
  intros T t H B ->. remember (bs T) as w eqn:Ew. rewrite ?bs_app, <- ?app_assoc, <- ?Ew.
  match goal with |- lexes _ _ ?q _ => assert (E : exists q', lexes (Between false) (bs "func (w WalkerOps) Walk" ++ w ++ bs "(node " ++ w ++ bs ") Stopper {" ++ bs newline) q' (Between false) /\ q' = q) end.
  { eexists. split; [lex|]. vm_compute. reflexivity. }
  destruct E as (q' & E & <-). exact E.
Qed.

(** A text that holds functions, between two others. *)
Definition holds_funcs (t : string) (ds : list wfunc) : Prop :=
  exists ps N, lexes (Between false) (bs t) ps (Between false) /\
    forall f rest ds', N <= f -> read_funcs f rest = Some ds' -> read_funcs (length ds + f) (ps ++ rest) = Some (ds ++ ds').
Lemma holds_funcs_app : forall a b gs hs, holds_funcs a gs -> holds_funcs b hs -> holds_funcs (a ++ b)%string (gs ++ hs).
Proof.
  intros a b gs hs (ps & N & A & RA) (qs & M & B & RB). exists (ps ++ qs), (N + M). split.
  - rewrite bs_app. exact (lexes_app _ _ _ _ _ _ _ A B).
  - intros f rest gs' F R. rewrite app_length, <- !app_assoc, <- Nat.add_assoc. apply RA; [lia|]. apply RB; [lia|exact R].
Qed.

Definition func_of (w : string * visits) : wfunc :=
  mkWFunc (bs "w") (bs "WalkerOps") (bs "Walk" ++ bs (fst w)) (bs "node") (bs (fst w)) (bs "Stopper")
    (hook_stmt (bs "Enter" ++ bs (fst w)) "node" :: map (fun v : string * bool * string * bool => match v with (g, m, R, k) => visit_stmt (bs g) m (bs R) k end) (snd w) ++
     [exit_stmt (bs "Exit" ++ bs (fst w)); WReturn (nm "nil")]).
Definition visits_fit (vs : visits) : Prop := Forall (fun v : string * bool * string * bool => match v with (g, _, R, _) => forallb name_char (bs g) = true /\ forallb name_char (bs R) = true end) vs.
Lemma app_assoc_s : forall x y z, (x ++ (y ++ z) = (x ++ y) ++ z)%string.
Proof. induction x as [|c x IH]; intros y z; [reflexivity|]. cbn. now rewrite IH. Qed.
Lemma walk_text_ok : forall w, forallb name_char (bs (fst w)) = true -> match bs (fst w) with [] => False | c :: _ => name_start c = true end -> visits_fit (snd w) ->
  holds_funcs (walk_text w) [func_of w].
Proof.
  intros [T vs] A B F. cbn [fst snd] in *.
  pose proof (front_lexes T _ A B eq_refl) as L0. pose proof (head_says T _ A eq_refl) as S1. pose proof (visits_say vs F) as S2.
  destruct (tail_reads T _ A eq_refl) as (qs & L3 & R3). destruct (says_app _ _ _ _ S1 S2) as (ps & L1 & R1).
  pose proof (lexes_app _ _ _ _ _ _ _ L0 (lexes_app _ _ _ _ _ _ _ L1 L3)) as L.
  eexists _, (40 + length (hook_stmt (bs "Enter" ++ bs T) "node" :: map (fun v : string * bool * string * bool => match v with (g, m, R, k) => visit_stmt (bs g) m (bs R) k end) vs)).
  split.
  - unfold walk_text. cbn [fst snd]. rewrite <- !bs_app in L. rewrite <- !app_assoc_s in L. exact L.
  - intros f rest ds' LE E. change (length [func_of (T, vs)] + f) with (S f).
    set (ss := _ :: map _ vs) in *. replace f with (length ss + (40 + (f - length ss - 40))) in * by lia.
    set (k := f - length ss - 40) in *. specialize (R3 k rest).
    assert (R : read_ws (length ss + (40 + k)) (ps ++ qs ++ rest) = Some (ss ++ [exit_stmt (bs "Exit" ++ bs T); WReturn (nm "nil")], Mark Semi :: rest)) by (exact (R1 k _ _ _ R3)).
    rewrite <- !app_assoc. cbn [app read_funcs read_func]. change (is "func" (bs "func")) with true. cbn iota. rewrite R, E. reflexivity.
Qed.

(** * What they do *)
Section Runs.
  Context {St : Type}.
  Variable hooks : bytes -> option (value -> St -> cres (option stopper * St)).
  Variable walks : bytes -> value -> St -> cres (option stopper * St).
  Variable getter : bytes -> value -> cres value.

  Definition env_of (n : value) : wenv := [(bs "node", WPlain n); (bs "w", WSelf)].
  Definition flow_of (e : wenv) (c : cres (option (option stopper) * St)) : cres (wflow * St) :=
    cbind c (fun '(o, st) => COk (match o with Some r => WLeaves r | None => WGoes e end, st)).
  Definition call_hook (f : bytes) (v : value) (st : St) : cres (option stopper * St) := match hooks f with Some h => h v st | None => COk (None, st) end.

  Lemma hook_runs : forall f n st, wexec hooks walks getter (hook_stmt f "node") (env_of n) st = flow_of (env_of n) (react (call_hook f n st)).
  Proof.
    intros f n st. cbv. destruct (hooks f) as [h|] eqn:E; [|reflexivity]. cbv. rewrite ?E. destruct (h n st) as [[[[[] []]|] st']| |]; reflexivity.
  Qed.

  Definition wblock (l : list wstmt) (e outer : wenv) (st : St) : cres (wflow * St) :=
    cbind (wexec_all hooks walks getter l e st) (fun '(r, st) => match r with WGoes e' => COk (WGoes (woutside outer e'), st) | WLeaves v => COk (WLeaves v, st) end).
  Definition wloop (x : bytes) (body : list wstmt) (e : wenv) : list value -> St -> cres (wflow * St) :=
    fix loop (vs : list value) (st : St) {struct vs} : cres (wflow * St) :=
    match vs with
    | [] => COk (WGoes e, st)
    | w :: vs' => cbind (wblock body ((x, WPlain w) :: e) e st) (fun '(r, st) => match r with WGoes _ => loop vs' st | WLeaves v => COk (WLeaves v, st) end)
    end.
  Lemma range_runs : forall x i body e st, wexec hooks walks getter (WRange x i body) e st =
    cbind (weval hooks walks getter e i st) (fun '(v, st) => match v with WPlain (VSlice l) => wloop x body e l st | WNil => COk (WGoes e, st) | _ => stuck end).
  Proof. reflexivity. Qed.
  Lemma loop_runs : forall x s e visit, (forall c st, wblock [s] ((x, WPlain c) :: e) e st = flow_of e (visit c st)) ->
    forall l st, wloop x [s] e l st = flow_of e (each visit l st).
  Proof.
    intros x s e visit H. induction l as [|c l IH]; intros st; [reflexivity|]. cbn [each].
    change (wloop x [s] e (c :: l) st) with (cbind (wblock [s] ((x, WPlain c) :: e) e st) (fun '(r, st) => match r with WGoes _ => wloop x [s] e l st | WLeaves v => COk (WLeaves v, st) end)).
    rewrite H. unfold flow_of at 1.
    destruct (visit c st) as [[[r|] st']| |]; [reflexivity| |reflexivity|reflexivity]. cbn [cbind]. rewrite IH. reflexivity.
  Qed.
  Lemma visit_runs : forall g many R walked n st,
    wexec hooks walks getter (visit_stmt (bs g) many (bs R) walked) (env_of n) st =
    flow_of (env_of n) (cbind (children_of getter g many n) (fun l =>
      each (fun c st => react (if walked then walks (bs ("Walk" ++ R)%string) c st else callback hooks ("Enter" ++ R)%string c st)) l st)).
  Proof.
    intros g many R walked n st. unfold children_of, callback. rewrite !bs_app. generalize (bs g) (bs R). clear g R. intros g R.
    destruct many.
    - unfold visit_stmt. cbn [negb]. rewrite range_runs.
      change (weval hooks walks getter (env_of n) (EApply (EDot (nm "node") (bs "All" ++ g)) []) st) with (cbind (getter (bs "All" ++ g) n) (fun v => COk (plain v, st))).
      destruct (getter (bs "All" ++ g) n) as [v| |]; [|reflexivity|reflexivity]. cbn [cbind]. destruct v; try reflexivity. cbn [plain cbind].
      apply loop_runs. intros c st'. destruct walked.
      + cbv. match goal with |- context [walks ?a c st'] => destruct (walks a c st') as [[[[[] []]|] st'']| |] end; reflexivity.
      + cbv. match goal with |- context [hooks ?a] => destruct (hooks a) as [h|] eqn:E end; [|reflexivity]. cbv. rewrite ?E. destruct (h c st') as [[[[[] []]|] st'']| |]; reflexivity.
    - destruct walked; cbv; (match goal with |- context [getter ?a n] => destruct (getter a n) as [v| |] end; try reflexivity; destruct v; try reflexivity).
      + match goal with |- context [walks ?a ?c st] => destruct (walks a c st) as [[[[[] []]|] st']| |] end; reflexivity.
      + match goal with |- context [hooks ?a] => destruct (hooks a) as [h|] eqn:E end; [cbv; rewrite ?E; match goal with H : hooks _ = Some ?k |- context [?k ?c st] => destruct (k c st) as [[[[[] []]|] st']| |] end|]; reflexivity.
  Qed.
  Definition visit_of (n : value) (v : string * bool * string * bool) (st : St) : cres (option (option stopper) * St) :=
    match v with (g, many, R, walked) =>
      cbind (children_of getter g many n) (fun l => each (fun c st => react (if walked then walks (bs ("Walk" ++ R)%string) c st else callback hooks ("Enter" ++ R)%string c st)) l st) end.
  Lemma visits_run : forall n rest vs st,
    wexec_all hooks walks getter (map (fun v : string * bool * string * bool => match v with (g, m, R, k) => visit_stmt (bs g) m (bs R) k end) vs ++ rest) (env_of n) st =
    cbind (each (visit_of n) vs st) (fun '(o, st) => match o with Some r => COk (WLeaves r, st) | None => wexec_all hooks walks getter rest (env_of n) st end).
  Proof.
    intros n rest. induction vs as [|[[[g m] R] k] vs IH]; intros st; [reflexivity|]. cbn [map app wexec_all each]. rewrite visit_runs.
    fold (visit_of n (g, m, R, k) st). destruct (visit_of n (g, m, R, k) st) as [[[r|] st']| |]; [reflexivity| |reflexivity|reflexivity].
    cbn [flow_of cbind]. exact (IH st').
  Qed.
  Lemma exit_runs : forall f n st, wexec_all hooks walks getter [exit_stmt f; WReturn (nm "nil")] (env_of n) st =
    cbind (call_hook f n st) (fun '(s, st) => COk (WLeaves (match s with Some s => if abort s then Some s else None | None => None end), st)).
  Proof.
    intros f n st. cbv. destruct (hooks f) as [h|] eqn:E; [|reflexivity]. cbv. rewrite ?E. destruct (h n st) as [[[[[] []]|] st']| |]; reflexivity.
  Qed.
  Lemma func_runs : forall w n st, call_func hooks walks getter (func_of w) n st = walk_once hooks walks getter (fst w) (snd w) n st.
  Proof.
    intros [T vs] n st. unfold call_func, func_of, walk_once. cbn [wf_body wf_param wf_self fst snd]. fold (env_of n). cbn [wexec_all]. rewrite hook_runs, <- bs_app.
    change (call_hook (bs ("Enter" ++ T)%string) n st) with (callback hooks ("Enter" ++ T)%string n st).
    destruct (react (callback hooks ("Enter" ++ T)%string n st)) as [[[r|] st1]| |]; [reflexivity| |reflexivity|reflexivity]. cbn [flow_of cbind].
    rewrite visits_run. change (fun (v : string * bool * string * bool) (st0 : St) => _) with (visit_of n).
    destruct (each (visit_of n) vs st1) as [[[r|] st2]| |]; [reflexivity| |reflexivity|reflexivity]. cbn [cbind].
    rewrite exit_runs, <- bs_app. change (call_hook (bs ("Exit" ++ T)%string) n st2) with (callback hooks ("Exit" ++ T)%string n st2).
    destruct (callback hooks ("Exit" ++ T)%string n st2) as [[s st3]| |]; reflexivity.
  Qed.
End Runs.

Lemma func_of_walks : forall w, walk_function w (func_of w).
Proof.
  intros w. unfold walk_function. cbn [func_of wf_recv wf_name wf_type wf_result]. rewrite bs_app. repeat split. intros. apply func_runs.
Qed.

(** * All of them *)
Definition walk_fits (w : string * visits) : Prop :=
  forallb name_char (bs (fst w)) = true /\ match bs (fst w) with [] => False | c :: _ => name_start c = true end /\ visits_fit (snd w).
Lemma joined_funcs : forall ws, Forall walk_fits ws -> holds_funcs (join_lines (map walk_text ws)) (map func_of ws).
Proof.
  intros ws F. induction F as [|w l (A & B & C) F IH].
  - exists [], 0. split; [reflexivity|]. intros f rest ds' _ R. exact R.
  - destruct l as [|w' l].
    + exact (walk_text_ok w A B C).
    + change (join_lines (map walk_text (w :: w' :: l))) with (walk_text w ++ newline ++ join_lines (map walk_text (w' :: l)))%string.
      apply (holds_funcs_app _ _ [_] _ (walk_text_ok w A B C)). apply (holds_funcs_app _ _ [] _); [|exact IH].
      exists [], 0. split; [reflexivity|]. intros f rest ds' _ R. exact R.
Qed.
Lemma walks_text_ok : forall ws, Forall walk_fits ws ->
  exists ws' ds, Permutation ws' ws /\ go_funcs (bs (walks_text ws)) ds /\ Forall2 walk_function ws' ds.
Proof.
  intros ws F. unfold walks_text. destruct (Permutation_map_inv _ _ (sort_perm (map walk_text ws))) as (ws' & E & P).
  exists ws', (map func_of ws'). split; [exact (Permutation_sym P)|]. rewrite E. assert (F' : Forall walk_fits ws') by (exact (Permutation_Forall P F)).
  split.
  - destruct (joined_funcs ws' F') as (ps & N & L & R). exists ps, (length (map func_of ws') + S N). split.
    + unfold go_tokens. assert (E' : lexes (Between false) (bs (join_lines (map walk_text ws')) ++ [nl]) (ps ++ []) (Between false)) by (apply (lexes_app _ _ _ _ _ _ _ L); reflexivity).
      unfold lexes in E'. rewrite E'. now rewrite app_nil_r.
    + specialize (R (S N) [] [] ltac:(lia) eq_refl). now rewrite !app_nil_r in R.
  - clear. induction ws' as [|w l IH]; constructor; [apply func_of_walks|exact IH].
Qed.

Section Fit.
  Variable camel : string -> string.
  Lemma visit_fits : forall tm c, child_fits camel c = true -> visits_fit (visit camel tm c).
  Proof.
    intros tm c F. destruct c as [p|n p|n p|n p q|p q|n p r q]; cbn [visit child_fits] in *; try (now constructor).
    - apply andb_true_iff in F as [F _]. apply andb_true_iff in F as [A B]. constructor; [|constructor]. split; [exact (spelled_chars _ A)|exact (proj1 (spelled_node _ B))].
    - apply andb_true_iff in F as [F _]. apply andb_true_iff in F as [F C]. apply andb_true_iff in F as [A B]. constructor; [|constructor]. split; [exact (spelled_chars _ A)|exact (proj1 (spelled_node _ C))].
  Qed.
  Lemma walks_fit : forall tm, names_fit camel tm = true -> Forall walk_fits (walks camel tm).
  Proof.
    intros tm F. unfold walks. apply Forall_forall. intros w I. apply in_flat_map in I as (k & _ & I).
    destruct (lookup k tm) as [[n|n cs]|] eqn:E; try contradiction. destruct cs as [|c cs]; [contradiction|]. destruct I as [<-|[]].
    pose proof (fit_there _ _ _ _ F E) as T. cbn [type_fits] in T. apply andb_true_iff in T as [T C].
    destruct (spelled_node _ T) as [A B]. split; [exact A|]. split; [exact B|]. cbn [snd]. apply Forall_forall. intros v I. apply in_flat_map in I as (d & I & V).
    assert (D : child_fits camel d = true).
    { rewrite forallb_forall in C. apply C. exact (proj1 (sort_children_in _ _) I). }
    pose proof (visit_fits tm d D) as X. unfold visits_fit in X. rewrite Forall_forall in X. exact (X v V).
  Qed.
End Fit.
