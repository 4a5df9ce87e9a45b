(** Properties C01-C07: scanners. *)
From Verif Require Import Base Scanner ScannerSpec ScannerProofs NewProofs.
Local Open Scope Z_scope.

Definition demo_src : source := mkSource (bs "one" ++ nl :: bs "two" ++ nl :: bs "three") "f.txt".
Definition demo (i n : Z) : scanner := mkScanner (Some demo_src) i n.

Lemma demo_window : forall i n, (i + n <= 13)%nat ->
  window (demo (Z.of_nat i) (Z.of_nat n)) demo_src i n.
Proof. intros i n H. repeat split; auto. Qed.

(** C01: eating splits the visible text at the given point. *)
Theorem C01_eat_splits : forall s o i n k, window s o i n -> (k <= n)%nat ->
  let (e, r) := eat s (Z.of_nat k) in
  window e o i k /\ window r o (i + k) (n - k) /\
  exists te tr, shows e te /\ shows r tr /\ shows s (te ++ tr) /\ length te = k.
Proof. exact eat_splits. Qed.
Print Assumptions C01_eat_splits.
(** A new scanner shows its whole text, ... *)
Theorem C01_new : forall b f, window (new_scanner b) (mkSource b "") 0 (length b) /\ shows (new_scanner b) b /\
  window (new_scanner_file b f) (mkSource b f) 0 (length b) /\ shows (new_scanner_file b f) b.
Proof. exact new_shows. Qed.
Print Assumptions C01_new.
(** ... a scanner at a range of it that part, one at no range of it the whole text again, and one with a negative size whose ends
    lie in the text panics. *)
Theorem C01_new_at : forall b off size,
  (forall i n t, off = Z.of_nat i -> size = Z.of_nat n -> range_text b i n t -> shows (new_scanner_at b off size) t) /\
  ((off < 0 \/ off + size < 0 \/ blen b < off \/ blen b < off + size)%Z -> shows (new_scanner_at b off size) b) /\
  ((size < 0 /\ 0 <= off + size /\ off <= blen b)%Z -> sstring (new_scanner_at b off size) = None).
Proof. exact new_at_shows. Qed.
Print Assumptions C01_new_at.

Example C01_example :
  window (demo 4 9) demo_src 4 9 /\
  shows (fst (eat (demo 4 9) 3)) (bs "two") /\
  shows (snd (eat (demo 4 9) 3)) (nl :: bs "three").
Proof. split; [apply (demo_window 4 9); lia|]. now split. Qed.

(** C02: [EatString] succeeds exactly on a prefix, eats exactly it, else reports failure
    (and returns no new scanner: the receiver is untouched). *)
Theorem C02_eat_string_exact : forall s o i n str t, window s o i n -> shows s t ->
  (forall r, t = str ++ r ->
     exists e s', eat_string s str = Some (Some (e, s')) /\
       window e o i (length str) /\ window s' o (i + length str) (n - length str) /\
       shows e str /\ shows s' r) /\
  ((~ exists r, t = str ++ r) -> eat_string s str = Some None).
Proof. exact eat_string_spec. Qed.
Print Assumptions C02_eat_string_exact.

Example C02_example :
  shows (demo 4 9) (bs "two" ++ nl :: bs "three") /\
  (exists e s', eat_string (demo 4 9) (bs "tw") = Some (Some (e, s')) /\ shows e (bs "tw")) /\
  eat_string (demo 4 9) (bs "wt") = Some None.
Proof. split; [reflexivity|]. split; [|reflexivity]. eexists _, _. split; reflexivity. Qed.

(** C03: [Position] is the line and column of the offset ... *)
Theorem C03_position_correct : forall s o i n, window s o i n ->
  exists line col, position s = Some (line, col) /\ is_position (origin o) i line col.
Proof. exact position_ok. Qed.
Print Assumptions C03_position_correct.

(** ... and on one source it is injective and order preserving in the offset. *)
Theorem C03_position_faithful : forall s1 s2 o i1 n1 i2 n2 p1 p2,
  window s1 o i1 n1 -> window s2 o i2 n2 ->
  position s1 = Some p1 -> position s2 = Some p2 ->
  (p1 = p2 <-> offset s1 = offset s2) /\ (pos_lt p1 p2 <-> offset s1 < offset s2).
Proof. exact position_order. Qed.
Print Assumptions C03_position_faithful.

Example C03_example :
  window (demo 10 2) demo_src 10 2 /\ position (demo 10 2) = Some (3, 3) /\
  position (demo 3 0) = Some (1, 4) /\ pos_lt (1, 4) (3, 3).
Proof. split; [apply (demo_window 10 2); lia|]. repeat split. left. simpl. lia. Qed.

(** C04: [MergeScanners] succeeds iff there is an argument and all sources agree; the
    result is the least cover of the arguments; argument order is irrelevant. *)
Theorem C04_merge_succeeds_iff : forall xs,
  (exists m, merge_scanners xs = Some m) <->
  (xs <> [] /\ exists o, forall v, In v xs -> src v = o).
Proof. exact merge_success. Qed.
Print Assumptions C04_merge_succeeds_iff.

Theorem C04_merge_least_cover : forall xs m, merge_scanners xs = Some m ->
  (forall v, In v xs -> covers m v) /\
  (forall c, (forall v, In v xs -> covers c v) -> covers c m).
Proof. exact merge_covers. Qed.
Print Assumptions C04_merge_least_cover.

Theorem C04_merge_order_irrelevant : forall xs ys, Permutation xs ys ->
  merge_scanners xs = merge_scanners ys.
Proof. exact merge_perm. Qed.
Print Assumptions C04_merge_order_irrelevant.

Example C04_example :
  merge_scanners [demo 4 3; demo 8 2; demo 1 2] = Some (demo 1 9) /\
  merge_scanners [demo 4 3; new_scanner (bs "x")] = None.
Proof. split; reflexivity. Qed.

(** C05: [Contains] is inclusion of ranges of one source, a partial order. *)
Theorem C05_contains_is_cover : forall a b, src a <> None -> src b <> None ->
  (contains a b = Some true <-> covers a b) /\ (contains a b = Some false <-> ~ covers a b).
Proof. exact contains_covers. Qed.
Print Assumptions C05_contains_is_cover.

Theorem C05_contains_partial_order :
  (forall a, src a <> None -> contains a a = Some true) /\
  (forall a b, contains a b = Some true -> contains b a = Some true -> a = b) /\
  (forall a b c, contains a b = Some true -> contains b c = Some true -> contains a c = Some true).
Proof. exact contains_partial_order. Qed.
Print Assumptions C05_contains_partial_order.

Example C05_example :
  contains (demo 1 9) (demo 4 3) = Some true /\ contains (demo 4 3) (demo 1 9) = Some false /\
  contains (demo 1 9) (new_scanner (bs "x")) = Some false.
Proof. repeat split. Qed.

(** C06: [StripSource] keeps text, offset, length and file name; the new source is just
    the text; stripping is idempotent. *)
Theorem C06_strip_source_keeps_text_partial : forall s o i n, window s o i n ->
  exists s', strip_source s = Some s' /\ sstring s' = sstring s /\ offset s' = offset s /\
    filename s' = filename s /\ slen s' = slen s /\
    (exists o', src s' = Some o' /\ sstring s = Some (origin o')) /\
    strip_source s' = Some s'.
Proof. exact strip_source_spec. Qed.
Print Assumptions C06_strip_source_keeps_text_partial.

(** ... but not [Position], which may change or panic. *)
Theorem C06_strip_source_position_refuted :
  (exists s o i n s', window s o i n /\ strip_source s = Some s' /\
     position s <> None /\ position s' = None) /\
  (exists s o i n s' p p', window s o i n /\ strip_source s = Some s' /\
     position s = Some p /\ position s' = Some p' /\ p <> p').
Proof. exact strip_source_position. Qed.
Print Assumptions C06_strip_source_position_refuted.

Example C06_example :
  exists s', strip_source (demo 4 3) = Some s' /\ shows s' (bs "two") /\ position s' = None.
Proof. eexists. split; [reflexivity|]. now split. Qed.

(** C07: [Context] shows the source once, around the highlighted text; a line limit keeps a
    tail of the text before and a head of the text after. *)
Theorem C07_context_nolimit : forall s o i n, window s o i n ->
  exists pos above mid below, context s (-1) = Some (pos, above, mid, below) /\
    position s = Some pos /\ shows s mid /\ above ++ mid ++ below = origin o /\ length above = i.
Proof. exact context_nolimit. Qed.
Print Assumptions C07_context_nolimit.

Theorem C07_context_limit : forall s o i n limit pos above mid below,
  window s o i n -> 0 <= limit ->
  context s (-1) = Some (pos, above, mid, below) ->
  exists above' below', context s limit = Some (pos, above', mid, below') /\
    tail_lines limit above above' /\ head_lines limit below below'.
Proof. exact context_limit. Qed.
Print Assumptions C07_context_limit.

Example C07_example :
  context (demo 5 1) 1 = Some ((2, 2), bs "one" ++ nl :: bs "t", bs "w", bs "o") /\
  context (demo 5 1) 0 = Some ((2, 2), bs "t", bs "w", []) /\
  context (demo 5 1) (-1) =
    Some ((2, 2), bs "one" ++ nl :: bs "t", bs "w", bs "o" ++ nl :: bs "three").
Proof. repeat split. Qed.
