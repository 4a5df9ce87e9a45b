(** Go's [regexp] package as far as wbnf uses it: a pattern text is compiled
    ([MustCompile] panics on invalid patterns) and [FindStringSubmatchIndex] is called.
    The engine is an argument of the model; [engine_ok] is the part of its documented
    behaviour the theorems rely on.  Regex.v gives a concrete engine meeting it. *)
From Verif Require Import Base Scanner.
Local Open Scope Z_scope.

Record engine := mkEngine {
  re_valid : bytes -> bool;                              (* does the pattern compile *)
  re_groups : bytes -> nat;                              (* number of capture groups *)
  re_find : bytes -> bytes -> option (list (Z * Z));     (* match and groups; -1,-1 = group not set *)
  re_lit_ok : bytes -> bool                              (* literal texts matched byte by byte *)
}.

(** The bytes [regexp.QuoteMeta] escapes: \.+*?()|[]{}^$ *)
Definition is_meta (c : ascii) : bool :=
  existsb (Ascii.eqb c) (bs "\.+*?()|[]{}^$").

(** [regexp.QuoteMeta]. *)
Fixpoint quote_meta (s : bytes) : bytes :=
  match s with
  | [] => []
  | c :: s' => if is_meta c then "\"%char :: c :: quote_meta s' else c :: quote_meta s'
  end.

(** parser.go:254, 284: the prefix of every compiled pattern. *)
Definition anchor : bytes := bs "(?m)\A".
Definition group (p : bytes) : bytes := "("%char :: p ++ [")"%char].

Definition is_ascii (c : ascii) : bool := Nat.ltb (nat_of_ascii c) 128.

(** A reported location pair inside [a, b), or "not set". *)
Definition loc_ok (a b : Z) (g : Z * Z) : Prop :=
  g = (-1, -1) \/ (a <= fst g /\ fst g <= snd g /\ snd g <= b).

Record engine_ok (E : engine) : Prop := {
  (* a match lies in the text, groups lie in the match, their number is that of the pattern *)
  ok_shape : forall p t locs, re_find E p t = Some locs ->
    exists a b gs, locs = (a, b) :: gs /\ 0 <= a /\ a <= b /\ b <= blen t /\
      length gs = re_groups E p /\ Forall (loc_ok a b) gs;
  (* a quoted literal matches exactly itself *)
  ok_lit_ascii : forall s, forallb is_ascii s = true -> re_lit_ok E s = true;
  ok_lit_valid : forall s, re_lit_ok E s = true -> re_valid E (anchor ++ group (quote_meta s)) = true;
  ok_lit : forall s t, re_lit_ok E s = true ->
    re_find E (anchor ++ group (quote_meta s)) t =
      if has_prefix s t then Some [(0, blen s); (0, blen s)] else None;
  (* putting a pattern that compiles on its own into an anchored group *)
  ok_group_count : forall p, re_valid E p = true -> re_valid E (anchor ++ group p) = true ->
    re_groups E (anchor ++ group p) = S (re_groups E p);
  ok_group : forall p t a b g gs, re_valid E p = true -> re_valid E (anchor ++ group p) = true ->
    re_find E (anchor ++ group p) t = Some ((a, b) :: g :: gs) -> a = 0 /\ g = (0, b)
}.

(** scanner.go:185-208 [Scanner.EatRegexp] with [captures] of length [ncap]
    (0 for nil): whole match, captured scanners, number of groups, rest. *)
Inductive eat_result :=
| EatPanic
| EatNo
| EatOk (m : scanner) (caps : list scanner) (n : nat) (rest : scanner).

Definition eat_regexp (E : engine) (re : bytes) (s : scanner) (ncap : nat) : eat_result :=
  match sslice s with
  | None => EatPanic
  | Some t =>
      match re_find E re t with
      | None => EatNo
      | Some [] => EatPanic
      | Some ((a, b) :: gs) =>
          if negb (a =? 0) then EatPanic
          else EatOk (slice s a b)
                     (map (fun g => slice s (fst g) (snd g)) (firstn ncap gs))
                     (length gs) (skip s b)
      end
  end.

(** parser.go:196-203 [eatRegexp]: [eaten] is an array of two zero scanners; the result is
    [eaten[n-1]], which panics for n = 0 and n > 2. *)
Inductive tok_result :=
| TokPanic
| TokNo
| TokOk (leaf rest : scanner).

Definition eat_token (E : engine) (re : bytes) (s : scanner) : tok_result :=
  match eat_regexp E re s 2 with
  | EatPanic => TokPanic
  | EatNo => TokNo
  | EatOk _ caps n rest =>
      match n, caps with
      | 1%nat, c0 :: _ => TokOk c0 rest
      | 2%nat, _ :: c1 :: _ => TokOk c1 rest
      | _, _ => TokPanic
      end
  end.
