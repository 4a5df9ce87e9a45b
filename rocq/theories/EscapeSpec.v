(** What the names of externals say about escapes, and what an escape does to a parse. *)
From Verif Require Import Base Scanner ScannerSpec Syntax Engine Parse FlowSpec.
Local Open Scope list_scope.

(** * Names *)

(** The name is that of an escape: it starts with a star. *)
Definition starred (n : string) : Prop := exists r, bs n = "*"%char :: r.

(** No "()" in the text. *)
Definition plain (x : bytes) : Prop := forall a b, x <> a ++ bs "()" ++ b.

(** The name gives the opening pattern [o] and the closing pattern [c]. *)
Definition names_escape (n : string) (o c : bytes) : Prop :=
  exists r, bs n = "*"%char :: o ++ bs "()" ++ c ++ r /\ plain o /\ plain c /\ (r = [] \/ exists r', r = bs "()" ++ r').

(** The escape that a set of externals gives. *)
Definition gives (E : engine) (exts : list (string * extfn)) (esc : option escape) : Prop :=
  match esc with
  | None => forall n fn, In (n, fn) exts -> ~ starred n
  | Some e => exists l1 n l2 o c, exts = l1 ++ (n, esc_fn e) :: l2 /\
      (forall m fn, In (m, fn) (l1 ++ l2) -> ~ starred m) /\ names_escape n o c /\
      re_valid E (anchor ++ o) = true /\ re_valid E (anchor ++ c) = true /\
      esc_open e = anchor ++ o /\ esc_close e = anchor ++ c
  end.

(** * Parsing *)

(** The pattern matches at [s], and [s'] is what follows the match. *)
Definition takes (E : engine) (pat : bytes) (s s' : scanner) : Prop :=
  exists o i n t j gs, window s o i n /\ shows s t /\ re_find E pat t = Some ((0%Z, Z.of_nat j) :: gs) /\ (j <= n)%nat /\
    window s' o (i + j) (n - j).

(** It does not match at [s]. *)
Definition refuses (E : engine) (pat : bytes) (s : scanner) : Prop := exists t, shows s t /\ re_find E pat t = None.

(** The opening pattern of the escape matches at [s]. *)
Definition opens (E : engine) (e : escape) (s : scanner) : Prop := exists s1, takes E (esc_open e) s s1.

(** The external reads [t] from [s] and leaves [s'], whether or not it complains that something is left. *)
Definition reads_as (fn : extfn) (sc : scope) (s : scanner) (t : tree) (s' : scanner) : Prop :=
  fn sc s = (s', XOk t) \/ exists s1, fn sc s = (s1, XErr (EUnconsumed s' t)).

(** What comes of an escape at [s]: the outcome and the rest. *)
Inductive escaped (E : engine) (e : escape) (sc : scope) (s : scanner) : res -> scanner -> Prop :=
| esc_read : forall s1 t s2 s3, takes E (esc_open e) s s1 -> reads_as (esc_fn e) sc s1 t s2 -> takes E (esc_close e) s2 s3 ->
    escaped E e sc s (ROk t) s3
| esc_unclosed : forall s1 t s2, takes E (esc_open e) s s1 -> reads_as (esc_fn e) sc s1 t s2 -> refuses E (esc_close e) s2 ->
    escaped E e sc s (RErr EOther) s2
| esc_error : forall s1 s2 err, takes E (esc_open e) s s1 -> esc_fn e sc s1 = (s2, XErr err) -> (forall r t, err <> EUnconsumed r t) ->
    escaped E e sc s (RErr err) s2.

(** The opening pattern matches nowhere in what is to be read. *)
Definition never_opens (E : engine) (e : escape) (s : scanner) : Prop :=
  forall s', forward s s' -> refuses E (esc_open e) s'.

(** The same settings without the escape. *)
Definition unescaped (c : config) : config := mkConfig (cf_eng c) (cf_ext c) None (cf_rnd c).
