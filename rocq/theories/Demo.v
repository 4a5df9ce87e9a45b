(** Concrete grammars and inputs for the examples beside the theorems. *)
From Verif Require Import Base Scanner ScannerSpec ScannerProofs Syntax Engine Resolve Compile Parse Regex RegexProofs PegSpec FlowSpec CutSpec.
Local Open Scope Z_scope.

Definition text (x : string) : scanner := mkScanner (Some (mkSource (bs x) "")) 0 (blen (bs x)).
Lemma text_window : forall x, window (text x) (mkSource (bs x) "") 0 (length (bs x)).
Proof. intros x. unfold window, text, blen. simpl. repeat split; auto; lia. Qed.
Lemma text_range : forall x, in_range (text x).
Proof. intros x. do 3 eexists. apply text_window. Qed.
Lemma text_shows : forall x, shows (text x) (bs x).
Proof.
  intros x. unfold shows, sstring. pose proof (window_slice _ _ _ _ (text_window x)) as W. rewrite W. simpl. rewrite firstn_all. auto.
Qed.

Definition parsers_of (g : grammar) : parsers :=
  match compile regex_engine g with COk ps => ps | _ => mkParsers [] g end.
Definition seqno (i : nat) : Z := Z.of_nat i + 2.
Definition call : config := mkConfig regex_engine [] None seqno.

(** The strings at the leaves of a successful parse. *)
Definition leaf_strings (o : res * scanner) : option (list string) :=
  match o with
  | (ROk v, _) => Some (map (fun l => match sstring l with Some b => sb b | None => "?"%string end) (leaves v))
  | _ => None
  end.

(** sums and differences, nested to the left *)
Definition sums : grammar :=
  [("e"%string, TDelim (TRule "n") (TOneof [TS (bs "+"); TS (bs "-")]) LeftToRight false false);
   ("n"%string, TOneof [TRE (bs "[0-9]+"); TSeq [TS (bs "("); TRule "e"; TS (bs ")")]])].

(** a cut point in the first alternative *)
Definition cutty : grammar :=
  [("s"%string, TOneof [TSeq [TCut (TS (bs "a")); TS (bs "b")]; TSeq [TS (bs "a"); TS (bs "c")]])].
