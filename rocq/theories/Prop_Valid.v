(** Property C58: validation reports exactly the faults of a text. *)
From Verif Require Import Base Scanner Syntax Engine Regex Demo Resolve WbnfGrammar Ast WbnfAst Walker WalkerSpec Build Recursion Validate Front FrontDemo
  ValidSpec ValidProofs.

(** C58: a tree has one list of defined names; when a name is defined twice, this and nothing else is reported. *)
Theorem C58_names_unique : forall n xs ys, names n xs -> names n ys -> xs = ys.
Proof. exact names_det. Qed.
Print Assumptions C58_names_unique.
Theorem C58_duplicates : forall E rt fuel n es, validate E rt fuel n = COk es ->
  exists xs, names n xs /\ (es = [DuplicatedRule] <-> ~ NoDup xs) /\ (In DuplicatedRule es <-> ~ NoDup xs).
Proof.
  intros E rt fuel n es H. destruct (validate_reports _ _ _ _ _ H) as (xs & N & D & U). exists xs. split; auto.
  destruct (ListDec.NoDup_dec string_dec xs) as [ND|ND].
  - destruct (U ND) as (c & _ & L). assert (X : ~ In DuplicatedRule es).
    { intros I. apply L in I as [(k & m & _ & F)|[I _]]; [inversion F|discriminate]. }
    split; (split; [intros I; exfalso; apply X|tauto]); [rewrite I; now left|auto].
  - rewrite (D ND). split; split; auto. intros _. now left.
Qed.
Print Assumptions C58_duplicates.

(** Otherwise exactly the kinds of faults of the nodes that are not in nested grammars or macro bodies are reported, and whether
    the check for left recursion objects. *)
Theorem C58_faults : forall E rt fuel n es xs, validate E rt fuel n = COk es -> names n xs -> NoDup xs ->
  exists cyclic, check_for_recursion rt fuel n = COk cyclic /\
    forall e, In e es <-> (exists k m, enters closed n k m /\ fault E xs (macro_called n) k m e) \/ e = PossibleCycleDetected /\ cyclic = true.
Proof.
  intros E rt fuel n es xs H N ND. destruct (validate_reports _ _ _ _ _ H) as (ys & N' & _ & U). rewrite (names_det _ _ _ N N') in *. auto.
Qed.
Print Assumptions C58_faults.

(** So a text is accepted if and only if there is no fault. *)
Theorem C58_accepts : forall E rt fuel n es xs, validate E rt fuel n = COk es -> names n xs ->
  (es = [] <-> NoDup xs /\ check_for_recursion rt fuel n = COk false /\
               forall k m e, enters closed n k m -> ~ fault E xs (macro_called n) k m e).
Proof.
  intros E rt fuel n es xs H N. destruct (validate_reports _ _ _ _ _ H) as (ys & N' & D & U). rewrite (names_det _ _ _ N N') in *. clear N.
  split.
  - intros ->. destruct (ListDec.NoDup_dec string_dec ys) as [ND|ND]; [|specialize (D ND); discriminate]. split; auto.
    destruct (U ND) as (c & C & L). split.
    + destruct c; auto. exfalso. apply (proj2 (L PossibleCycleDetected)). auto.
    + intros k m e A F. apply (proj2 (L e)). left. eauto.
  - intros (ND & C & F). destruct (U ND) as (c & C' & L). rewrite C in C'. inversion C'; subst. destruct es as [|e es]; auto. exfalso.
    destruct (proj1 (L e)) as [(k & m & A & B)|[_ A]]; [now left|eapply F; eauto|discriminate].
Qed.
Print Assumptions C58_accepts.

(** Texts with each of the faults, and one without. *)
Definition tree_of (x : string) : anode := match front_ast 300 x with COk (inr n) => n | _ => ABranch [] end.
Definition reported (x : string) : cres (list verror) := validate regex_engine plain_runtime 300 (tree_of x).
Example C58_example :
  reported "a -> 'x' b; b -> c='y' d='z'; .macro m(p) { p zz } e -> %!m('1') 'x'{2,3};" = COk [] /\
  reported "a -> 'x'; b -> 'y'; a -> zz;" = COk [DuplicatedRule] /\
  reported "a -> 'x' zz;" = COk [UnknownRule] /\
  reported "a -> /{x[};" = COk [InvalidRegex] /\
  reported "a -> 'x'; b -> a='y';" = COk [NameClashesWithRule] /\
  reported "a -> 'x'{3,2};" = COk [MinMaxQuantError] /\
  reported "a -> x='x' x='y';" = COk [MultipleTermsWithSameName] /\
  reported "a -> a;" = COk [PossibleCycleDetected] /\
  reported "a -> %!m('x');" = COk [NotAMacro] /\
  reported ".macro m(p) { p } a -> %!m('x', 'y');" = COk [IncorrectMacroArgCount] /\
  reported ".macro m(p, p) { p } a -> zz yy='a' yy='b' 'x'{3,2} %!m('x');" =
    COk [NameClashesWithRule; MultipleTermsWithSameName; UnknownRule; MinMaxQuantError; IncorrectMacroArgCount].
Proof. repeat split; vm_compute; reflexivity. Qed.
