(** One level of a walk, as [WalkTextSpec] has it, is that of [Walker.walk] when the getters and the walk functions of the children are. *)
From Verif Require Import Base Scanner Syntax Resolve Ast WbnfAst Walker GoText GoWalk WalkTextSpec.
Local Open Scope string_scope.
Local Open Scope list_scope.

Section Level.
  Context {St : Type}.
  Variables (name : kind -> string) (getter_of : string -> string).
  Variables (enter exit : kind -> anode -> St -> cres (option stopper * St)).
  Variable hooks : bytes -> option (value -> St -> cres (option stopper * St)).
  Variable walks : bytes -> value -> St -> cres (option stopper * St).
  Variable getter : bytes -> value -> cres value.
  Variable fuel : nat.
  Definition typed (k : kind) (n : anode) : value := VStruct (bs (name k)) (VNode n).
  Definition visits_of (k : kind) : visits := map (fun f : string * bool * kind => match f with (x, many, k') => (getter_of x, many, name k', negb (leaf_kind k')) end) (fields k).

  Hypothesis enters : forall k n st, callback hooks ("Enter" ++ name k)%string (typed k n) st = enter k n st.
  Hypothesis exits : forall k n st, leaf_kind k = false -> callback hooks ("Exit" ++ name k)%string (typed k n) st = exit k n st.
  Hypothesis walked : forall k n st, leaf_kind k = false -> walks (bs ("Walk" ++ name k)%string) (typed k n) st = walk enter exit (S fuel) k n st.
  Hypothesis gets_all : forall k n x k', In (x, true, k') (fields k) -> getter (bs ("All" ++ getter_of x)%string) (typed k n) = COk (VSlice (map (typed k') (all x n))).
  Hypothesis gets_one : forall k n x k', In (x, false, k') (fields k) ->
    getter (bs ("One" ++ getter_of x)%string) (typed k n) = COk (match one x n with Some m => VPtr (typed k' m) | None => VNil end).

  Definition out (c : cres (option stopper * St + St)) : cres (option (option stopper) * St) :=
    cbind c (fun c => COk (match c with inl (r, st) => (Some r, st) | inr st => (None, st) end)).
  Lemma children_app : forall (w : kind -> anode -> St -> cres (option stopper * St)) a b st,
    walk_children w (a ++ b) st = cbind (walk_children w a st) (fun c => match c with inl _ => COk c | inr st => walk_children w b st end).
  Proof.
    intros w a b st. revert st. induction a as [|[k n] a IH]; intros st; [reflexivity|]. cbn [app walk_children].
    destruct (w k n st) as [[s st']| |]; [|reflexivity|reflexivity]. cbn [cbind]. destruct (reaction s) as [r|]; [reflexivity|]. exact (IH st').
  Qed.
  Lemma child_step : forall k n st,
    (if negb (leaf_kind k) then walks (bs ("Walk" ++ name k)%string) (typed k n) st else callback hooks ("Enter" ++ name k)%string (typed k n) st) = walk enter exit (S fuel) k n st.
  Proof.
    intros k n st. destruct (leaf_kind k) eqn:L; cbn [negb].
    - rewrite enters. cbn [walk]. rewrite L. destruct (enter k n st) as [[s st']| |]; reflexivity.
    - exact (walked k n st L).
  Qed.
  Lemma each_child : forall k l st,
    each (fun c st => react (if negb (leaf_kind k) then walks (bs ("Walk" ++ name k)%string) c st else callback hooks ("Enter" ++ name k)%string c st)) (map (typed k) l) st =
    out (walk_children (walk enter exit (S fuel)) (map (fun m => (k, m)) l) st).
  Proof.
    intros k. induction l as [|n l IH]; intros st; [reflexivity|]. cbn [map each walk_children]. rewrite child_step. unfold react at 1.
    destruct (walk enter exit (S fuel) k n st) as [[s st']| |]; [|reflexivity|reflexivity]. cbn [cbind]. destruct (reaction s) as [r|]; [reflexivity|]. exact (IH st').
  Qed.
  Lemma each_field : forall k n fs st, (forall f, In f fs -> In f (fields k)) ->
    each (fun (v : string * bool * string * bool) st => match v with (g, many, R, w) =>
            cbind (children_of getter g many (typed k n)) (fun l => each (fun c st => react (if w then walks (bs ("Walk" ++ R)%string) c st else callback hooks ("Enter" ++ R)%string c st)) l st) end)
      (map (fun f : string * bool * kind => match f with (x, many, k') => (getter_of x, many, name k', negb (leaf_kind k')) end) fs) st =
    out (walk_children (walk enter exit (S fuel)) (flat_map (fun '(x, many, k') => map (fun m => (k', m)) (if many : bool then all x n else of_option (one x n))) fs) st).
  Proof.
    intros k n. induction fs as [|[[x many] k'] fs IH]; intros st H; [reflexivity|]. cbn [map each flat_map].
    assert (C : children_of getter (getter_of x) many (typed k n) = COk (map (typed k') (if many then all x n else of_option (one x n)))).
    { pose proof (H _ (or_introl eq_refl)) as I. unfold children_of. destruct many.
      - rewrite (gets_all k n x k' I). reflexivity.
      - rewrite (gets_one k n x k' I). destruct (one x n); reflexivity. }
    rewrite C. cbn [cbind]. rewrite each_child, children_app.
    destruct (walk_children _ (map (fun m => (k', m)) _) st) as [[[r st']|st']| |]; [reflexivity| |reflexivity|reflexivity].
    cbn [out cbind]. apply IH. intros f I. apply H. now right.
  Qed.
  Lemma walk_more : forall f k n st, leaf_kind k = false -> walk enter exit (S f) k n st =
    cbind (enter k n st) (fun '(s, st) => match reaction s with
      | Some r => COk (r, st)
      | None => cbind (walk_children (walk enter exit f) (visited k n) st) (fun c => match c with
          | inl r => COk r
          | inr st => cbind (exit k n st) (fun '(s, st) => match s with Some s => COk (if abort s then Some s else None, st) | None => COk (None, st) end)
          end)
      end).
  Proof. intros f k n st L. cbn [walk]. rewrite L. reflexivity. Qed.
  Lemma level : forall k n st, leaf_kind k = false ->
    walk_once hooks walks getter (name k) (visits_of k) (typed k n) st = walk enter exit (S (S fuel)) k n st.
  Proof.
    intros k n st L. unfold walk_once. rewrite enters, (walk_more (S fuel) k n st L).
    destruct (enter k n st) as [[s st1]| |]; [|reflexivity|reflexivity]. cbn [react cbind]. destruct (reaction s) as [r|]; [reflexivity|].
    unfold visits_of. rewrite (each_field k n (fields k) st1 (fun f I => I)). unfold visited.
    destruct (walk_children (walk enter exit (S fuel)) _ st1) as [[[r st2]|st2]| |]; [reflexivity| |reflexivity|reflexivity]. cbn [out cbind].
    rewrite (exits k n st2 L). destruct (exit k n st2) as [[[s'|] st3]| |]; reflexivity.
  Qed.
End Level.
