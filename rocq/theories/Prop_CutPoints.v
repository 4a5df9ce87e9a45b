(** Properties C21 and C41: automatic cut points. *)
From Verif Require Import Base Scanner ScannerSpec Syntax Engine Resolve Compile Parse Regex RegexProofs
  PegSpec DerivSpec CutSpec ApiSpec CutPoints CutPointSpec CutPointProofs Demo.
Local Open Scope Z_scope.

(** C21: parsing with the inserted cut points succeeds only where parsing without them does,
    with the same tree and rest ... *)
Theorem C21_marking_only_prunes_partial : forall c g ps ps' refs f r s, cf_esc c = None ->
  no_cut_grammar g = true -> readable g -> hooked_grammar refs g = true -> wraps_unmarked g ->
  compile (cf_eng c) g = COk ps -> compile (cf_eng c) (insert_cut_points g) = COk ps' ->
  (refs = true -> forall x, re_valid (cf_eng c) (anchor ++ group (quote_meta x)) = true) ->
  drawn_ok (cf_rnd c) (draws c f ps' r s) ->
  exists f0, forall f' rnd, (f0 <= f')%nat ->
  match parse_rule c f ps' r s with
  | (ROk v, s') => parse_rule (plain_call (cf_eng c) rnd) f' ps r s = (ROk v, s')
  | (RErr (EUnconsumed s1 v), s') => parse_rule (plain_call (cf_eng c) rnd) f' ps r s = (RErr (EUnconsumed s' v), s')
  | (RErr (EParse _), _) => exists rule s', parse_rule (plain_call (cf_eng c) rnd) f' ps r s = (RErr (EParse rule), s')
  | _ => True
  end.
Proof. exact insertion_prunes. Qed.
Print Assumptions C21_marking_only_prunes_partial.

Example C21_example :
  no_cut_grammar sums = true /\ readable sums /\ hooked_grammar true sums = true /\ wraps_unmarked sums /\
  insert_cut_points sums <> sums /\
  compile regex_engine sums = COk (parsers_of sums) /\
  compile regex_engine (insert_cut_points sums) = COk (parsers_of (insert_cut_points sums)) /\
  leaf_strings (parse_rule call 50 (parsers_of (insert_cut_points sums)) "e" (text "1+(2-3)")) =
    Some ["1"; "+"; "("; "2"; "-"; "3"; ")"]%string.
Proof.
  split; [reflexivity|]. split; [split; reflexivity|]. split; [reflexivity|]. split; [intros w x []|].
  split; [discriminate|]. repeat split; vm_compute; reflexivity.
Qed.

(** ... but the language is not preserved: a rule that is just one such literal commits its
    users ... *)
Definition shared : grammar :=
  [("s"%string, TOneof [TSeq [TRule "b"; TS (bs "p")]; TSeq [TRule "b"; TS (bs "q")]]); ("b"%string, TS (bs "x"))].
Theorem C21_shared_rule_refuted : exists g r t, compile regex_engine g = COk (parsers_of g) /\
  compile regex_engine (insert_cut_points g) = COk (parsers_of (insert_cut_points g)) /\
  (exists v s', parse_rule call 50 (parsers_of g) r (text t) = (ROk v, s')) /\
  (exists e s', parse_rule call 50 (parsers_of (insert_cut_points g)) r (text t) = (RErr e, s')).
Proof.
  exists shared, "s"%string, "xq"%string. split; [reflexivity|]. split; [reflexivity|].
  split; do 2 eexists; vm_compute; reflexivity.
Qed.
Print Assumptions C21_shared_rule_refuted.

(** ... a regexp matching the same text is shut out ... *)
Definition overlap : grammar :=
  [("s"%string, TOneof [TSeq [TS (bs "if"); TS (bs "(")]; TSeq [TRE (bs "[a-z]+"); TS (bs "=")]])].
Theorem C21_overlap_refuted : exists g r t, compile regex_engine g = COk (parsers_of g) /\
  compile regex_engine (insert_cut_points g) = COk (parsers_of (insert_cut_points g)) /\
  (exists v s', parse_rule call 50 (parsers_of g) r (text t) = (ROk v, s')) /\
  (exists e s', parse_rule call 50 (parsers_of (insert_cut_points g)) r (text t) = (RErr e, s')).
Proof.
  exists overlap, "s"%string, "if="%string. split; [reflexivity|]. split; [reflexivity|].
  split; do 2 eexists; vm_compute; reflexivity.
Qed.
Print Assumptions C21_overlap_refuted.

(** ... a trailing separator commits to one more item, ... *)
Definition trailing : grammar := [("s"%string, TDelim (TRE (bs "[a-z]")) (TS (bs ",")) NonAssociative false true)].
Theorem C21_trailing_refuted : exists g r t, compile regex_engine g = COk (parsers_of g) /\
  compile regex_engine (insert_cut_points g) = COk (parsers_of (insert_cut_points g)) /\
  (exists v s', parse_rule call 50 (parsers_of g) r (text t) = (ROk v, s')) /\
  (exists e s', parse_rule call 50 (parsers_of (insert_cut_points g)) r (text t) = (RErr e, s')).
Proof.
  exists trailing, "s"%string, "x,"%string. split; [reflexivity|]. split; [reflexivity|].
  split; do 2 eexists; vm_compute; reflexivity.
Qed.
Print Assumptions C21_trailing_refuted.

(** ... and a literal listed in .wrapRE loses its exemption, which even adds inputs. *)
Definition exempted : grammar :=
  [(WrapRE, TOneof [TS (bs "a"); TRE (bs "\s*()\s*")]); ("s"%string, TRE (bs "a"))].
Theorem C21_wrap_refuted : exists g r t, compile regex_engine g = COk (parsers_of g) /\
  compile regex_engine (insert_cut_points g) = COk (parsers_of (insert_cut_points g)) /\
  (exists e s', parse_rule call 50 (parsers_of g) r (text t) = (RErr e, s')) /\
  (exists v s', parse_rule call 50 (parsers_of (insert_cut_points g)) r (text t) = (ROk v, s')).
Proof.
  exists exempted, "s"%string, " a"%string. split; [reflexivity|]. split; [reflexivity|].
  split; do 2 eexists; vm_compute; reflexivity.
Qed.
Print Assumptions C21_wrap_refuted.

(** C41: insertion puts a cut point around exactly the literals counted once ... *)
Theorem C41_marks_counted_once : forall g,
  marked_grammar (fun x => times_in x (written_grammar g) = 1%nat) g (insert_cut_points g).
Proof. exact insert_marked. Qed.
Print Assumptions C41_marks_counted_once.

(** ... which are the literals written once, when no nested grammar, look-ahead or leading
    separator is involved ... *)
Theorem C41_counted_once_is_unique : forall g x, flat_grammar g = true ->
  (In x (find_unique_strings g) <-> times_in x (literals_grammar g) = 1%nat).
Proof. exact unique_strings_flat. Qed.
Print Assumptions C41_counted_once_is_unique.

(** ... adds nothing but cut points ... *)
Theorem C41_adds_only_cuts : forall g, erase_grammar (insert_cut_points g) = erase_grammar g.
Proof. exact insert_erase. Qed.
Print Assumptions C41_adds_only_cuts.

(** ... and does not depend on map order. *)
Theorem C41_map_order : forall g g', Permutation g g' -> Permutation (insert_cut_points g) (insert_cut_points g').
Proof. exact insert_perm. Qed.
Print Assumptions C41_map_order.

Example C41_example :
  flat_grammar shared = true /\ find_unique_strings shared = [bs "p"; bs "q"; bs "x"] /\
  insert_cut_points shared =
  [("s"%string, TOneof [TSeq [TRule "b"; TCut (TS (bs "p"))]; TSeq [TRule "b"; TCut (TS (bs "q"))]]);
   ("b"%string, TCut (TS (bs "x")))].
Proof. repeat split; vm_compute; reflexivity. Qed.

(** The documented rule, "any S() token which appears only once in the entire grammar", is not
    what happens: two uses in a nested grammar and one outside are all marked. *)
Definition nested_twice : grammar :=
  [("a"%string, TSeq [TS (bs ";"); TScoped (TRule "x") [("x"%string, TSeq [TS (bs ";"); TS (bs ";")])]])].
Theorem C41_only_unique_refuted : exists g x, times_in x (literals_grammar g) = 3%nat /\
  In x (find_unique_strings g) /\
  insert_cut_points g = [("a"%string, TSeq [TCut (TS x); TScoped (TRule "x") [("x"%string, TSeq [TCut (TS x); TCut (TS x)])]])].
Proof.
  exists nested_twice, (bs ";"). split; [reflexivity|]. split; [vm_compute; auto|vm_compute; reflexivity].
Qed.
Print Assumptions C41_only_unique_refuted.
