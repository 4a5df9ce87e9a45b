(** Model of the ast package: ast/counter.go, ast/from_parsernode.go, ast/to_parsernode.go,
    ast/node.go and the [Scanner] methods of ast/node_string.go.

    Maps are association lists.  A [Branch] is mutated in place by the Go code; here the
    functions return the new value.  [FromParserNode] also writes into the grammar map it is
    given (scoped grammars), so the grammar is threaded through as well.  Recursion through
    rules is bounded by fuel; [CDiv] is "out of fuel". *)
From Verif Require Import Base Scanner Syntax Resolve.

(** * Counters *)

(** counter.go:9-15 [counter]: lo and hi, as naturals (Go's int overflow is not modelled). *)
Definition counter := (nat * nat)%type.
(** counter.go:25-30. *)
Definition zeroOrOne : counter := (0, 1).
Definition zeroOrMore : counter := (0, 2).
Definition oneOne : counter := (1, 1).
Definition oneOrMore : counter := (1, 2).

(** counter.go:17-23 [newCounterFromQuant]. *)
Definition quant_counter (mn mx : nat) : counter := (mn, if Nat.eqb mx 0 then 2 else mx).

(** counter.go:32-48 [add], [mul], [union]. *)
Definition cadd (c d : counter) : counter := (fst c + fst d, snd c + snd d).
Definition cmul (c d : counter) : counter := (fst c * fst d, snd c * snd d).
Definition cunion (c d : counter) : counter :=
  (if Nat.ltb (fst d) (fst c) then fst d else fst c, if Nat.ltb (snd c) (snd d) then snd d else snd c).

(** counter.go:73 [counters], and reading it: a missing name reads as the zero counter. *)
Definition counters := list (string * counter).
Definition ctr (ctrs : counters) (name : string) : counter :=
  match lookup name ctrs with Some c => c | None => (0, 0) end.

(** counter.go:81-83 [count]. *)
Definition count (ctrs : counters) (name : string) (c : counter) : counters :=
  aset name (cadd (ctr ctrs name) c) ctrs.
(** counter.go:85-89 [counters.mul]. *)
Definition counters_mul (ctrs ds : counters) (parent : counter) : counters :=
  fold_left (fun m kv => count m (fst kv) (cmul parent (snd kv))) ds ctrs.
(** counter.go:91-95 [counters.union]. *)
Definition counters_union (ctrs o : counters) : counters :=
  fold_left (fun m kv => aset (fst kv) (cunion (ctr m (fst kv)) (snd kv)) m) o ctrs.

Section Loops.
  Context {A B : Type} (f : A -> B -> cres B).
  (** A loop over a slice that updates a state. *)
  Fixpoint cfold (l : list A) (b : B) : cres B :=
    match l with
    | [] => COk b
    | x :: l' => cbind (f x b) (cfold l')
    end.
End Loops.

(** counter.go:97-133 [termCountChildren]; a [Stack] panics. *)
Fixpoint count_children (term : term) (parent : counter) (ctrs : counters) {struct term} : cres counters :=
  match term with
  | TS _ | TRE _ => COk (count ctrs "" parent)
  | TRule r => COk (count ctrs r parent)
  | TSeq ts => cfold (fun child m => count_children child parent m) ts ctrs
  | TOneof ts =>
      cbind (cfold (fun child ds => cbind (count_children child oneOne []) (fun n => COk (counters_union ds n))) ts [])
            (fun ds => COk (counters_mul ctrs ds parent))
  | TDelim t sep _ _ _ =>
      cbind (count_children t (cmul parent oneOrMore) ctrs) (count_children sep (cmul parent zeroOrMore))
  | TQuant t mn mx => count_children t (cmul parent (quant_counter mn mx)) ctrs
  | TNamed n _ => COk (count ctrs n parent)
  | TREF i _ => COk (count ctrs i (cmul parent oneOrMore))
  | TScoped t _ => count_children t (cmul parent oneOrMore) ctrs
  | TCut t | TLookAhead t => count_children t parent ctrs
  | TExtRef s => COk (count ctrs s parent)
  | TStack _ => CPanic
  end.

(** counter.go:75-79 [newCounters]; the nil term (a missing rule) panics. *)
Definition new_counters (t : option term) : cres counters :=
  match t with Some t => count_children t oneOne [] | None => CPanic end.

(** * Names of stack levels *)

(** node.go:113 [stackLevelRE] = [^(\w+)@(\d+)$]. *)
Definition is_digit (c : ascii) : bool := let n := nat_of_ascii c in (Nat.leb 48 n && Nat.leb n 57)%bool.
Definition is_word (c : ascii) : bool :=
  let n := nat_of_ascii c in
  (is_digit c || (Nat.leb 65 n && Nat.leb n 90) || (Nat.leb 97 n && Nat.leb n 122) || Ascii.eqb c "_")%bool.
(** The text before and after the first "@". *)
Fixpoint split_at (b : bytes) : option (bytes * bytes) :=
  match b with
  | [] => None
  | c :: b' => if Ascii.eqb c "@" then Some ([], b')
               else match split_at b' with Some (x, y) => Some (c :: x, y) | None => None end
  end.
Definition nonempty {A} (l : list A) : bool := match l with [] => false | _ => true end.
Definition level_match (name : string) : option (bytes * bytes) :=
  match split_at (bs name) with
  | Some (w, d) => if (nonempty w && forallb is_word w && nonempty d && forallb is_digit d)%bool then Some (w, d) else None
  | None => None
  end.
(** [strconv.Atoi] on digits: [None] when the value does not fit an int64. *)
Fixpoint digits_value (d : bytes) (acc : Z) : Z :=
  match d with
  | [] => acc
  | c :: d' => digits_value d' (acc * 10 + (Z.of_nat (nat_of_ascii c) - 48))%Z
  end.
Definition atoi (d : bytes) : option Z :=
  let v := digits_value d 0 in if (v <=? 9223372036854775807)%Z then Some v else None.

(** node.go:115-129 [unlevel]. *)
Definition unlevel (name : string) (g : grammar) : cres (string * Z) :=
  match level_match name with
  | Some (w, d) => match atoi d with Some i => COk (sb w, i) | None => CPanic end
  | None =>
      if has (name ++ "@1")%string g
      then match split_at (bs name) with None => COk (name, 0%Z) | Some _ => COk (name, (-1)%Z) end
      else COk (name, (-1)%Z)
  end.

(** * From parse trees to ASTs *)

(** from_parsernode.go:103-108 [one]. *)
Definition badd_one (name : string) (n : anode) (b : branch) : cres branch :=
  match lookup name b with Some _ => CPanic | None => COk (aset name (One n) b) end.
(** from_parsernode.go:110-116 [many]; the assertion on the existing children may panic. *)
Definition badd_many (name : string) (n : anode) (b : branch) : cres branch :=
  match lookup name b with
  | Some (Many ns) => COk (aset name (Many (ns ++ [n])) b)
  | Some (One _) => CPanic
  | None => COk (aset name (Many [n]) b)
  end.
(** from_parsernode.go:92-101 [add]. *)
Definition badd (name : string) (n : anode) (c : counter) (b : branch) : cres branch :=
  match c with
  | (0, 0) => CPanic
  | (0, 1) | (1, 1) => badd_one name n b
  | _ => badd_many name n b
  end.

(** Go's == on terms held in interfaces: [None] is the run-time panic for values of an
    uncomparable type (slices and maps).  Struct fields are compared in order. *)
Definition and_then (a b : option bool) : option bool :=
  match a with Some true => b | Some false => Some false | None => None end.
Definition assoc_eqb (a b : assoc) : bool :=
  match a, b with
  | RightToLeft, RightToLeft | NonAssociative, NonAssociative | LeftToRight, LeftToRight => true
  | _, _ => false
  end.
Fixpoint term_same (a b : term) : option bool :=
  match a, b with
  | TRule x, TRule y => Some (String.eqb x y)
  | TS x, TS y => Some (beqb x y)
  | TRE x, TRE y => Some (beqb x y)
  | TREF i d, TREF i' d' =>
      Some (String.eqb i i' && match d, d' with None, None => true | Some x, Some y => beqb x y | _, _ => false end)%bool
  | TExtRef x, TExtRef y => Some (String.eqb x y)
  | TSeq _, TSeq _ | TOneof _, TOneof _ | TStack _, TStack _ | TScoped _ _, TScoped _ _ => None
  | TDelim t s a cs ce, TDelim t' s' a' cs' ce' =>
      and_then (term_same t t') (and_then (term_same s s')
        (Some (assoc_eqb a a' && Bool.eqb cs cs' && Bool.eqb ce ce')%bool))
  | TLookAhead t, TLookAhead t' => term_same t t'
  | TQuant t mn mx, TQuant t' mn' mx' => and_then (term_same t t') (Some (Nat.eqb mn mn' && Nat.eqb mx mx')%bool)
  | TNamed n t, TNamed n' t' => and_then (Some (String.eqb n n')) (term_same t t')
  | TCut t, TCut t' => term_same t t'
  | _, _ => Some false
  end.

(** parser.go:482-511 [LRTGen], [Next] and [LRTerms]: the term of the [i]th child. *)
Definition lr_term (t sep : term) (self : term) (a : assoc) (i : nat) : term :=
  if Nat.odd i then sep
  else let first := Nat.even (Nat.div2 i) in
       match a with
       | RightToLeft => if first then t else self
       | LeftToRight => if first then self else t
       | NonAssociative => t
       end.

Section Children.
  Context {B : Type} (f : nat -> tree -> B -> cres B).
  (** A loop over the children with their index. *)
  Fixpoint each (i : nat) (cs : list tree) (b : B) : cres B :=
    match cs with
    | [] => COk b
    | c :: cs' => cbind (f i c b) (each (S i) cs')
    end.
End Children.

(** from_parsernode.go:137-142: the rules of a scoped grammar are written into the map. *)
Definition merge_rules (g nested : grammar) : grammar :=
  fold_left (fun m (kv : string * term) => aset (fst kv) (snd kv) m) nested g.

(** from_parsernode.go:118-219 [fromParserNode]; the result is the new branch and the new
    contents of the grammar map.  [collapse] (lines 36-58) is the identity. *)
Fixpoint from_node (f : nat) (ot : option term) (ctrs : counters) (e : tree) (st : branch * grammar)
  {struct f} : cres (branch * grammar) :=
  match f with
  | O => CDiv
  | S f =>
    let '(b, g) := st in
    match ot with
    | None => CPanic
    | Some term =>
      match term with
      | TS _ | TRE _ =>
          match e with
          | Leaf s => cbind (badd "" (ALeaf s) (ctr ctrs "") b) (fun b' => COk (b', g))
          | _ => CPanic
          end
      | TRule r =>
          let rule := lookup r g in
          cbind (new_counters rule) (fun cc =>
          cbind (unlevel r g) (fun ul =>
          cbind (from_node f rule cc e ([], g)) (fun '(b2, g2) =>
          cbind (badd (fst ul) (ABranch b2) (ctr ctrs r) b) (fun b' => COk (b', g2)))))
      | TScoped t nested => from_node f (Some t) ctrs e (b, merge_rules g nested)
      | TSeq ts =>
          match e with
          | Node _ _ cs => each (fun i c st => match nth_error ts i with
                                               | Some t => from_node f (Some t) ctrs c st
                                               | None => CPanic
                                               end) 0 cs (b, g)
          | _ => CPanic
          end
      | TOneof ts =>
          match e with
          | Node _ (XChoice i) cs =>
              cbind (badd_many "@choice" (AExtra (DChoice i)) b) (fun b' =>
              match nth_error ts i, cs with
              | Some t, c :: _ => from_node f (Some t) ctrs c (b', g)
              | _, _ => CPanic
              end)
          | _ => CPanic
          end
      | TDelim t sep a cs ce =>
          match e with
          | Node tag (XAssoc na) kids =>
              each (fun i child st =>
                      match child with
                      | Empty =>
                          cbind (badd_many "@empty" (AExtra (DString (if Nat.eqb i 0 then "@prefix" else "@suffix"))) (fst st))
                                (fun b' => COk (b', snd st))
                      | _ =>
                          let lr := lr_term t sep term na i in
                          match term_same lr term with
                          | None => CPanic
                          | Some true =>
                              match child with
                              | Node _ _ _ =>
                                  cbind (new_counters (Some lr)) (fun cc =>
                                  cbind (count_children term (ctr ctrs "") cc) (fun cc =>
                                  cbind (from_node f (Some lr) cc child ([], snd st)) (fun '(b2, g2) =>
                                  cbind (badd_one tag (ABranch b2) (fst st)) (fun b' => COk (b', g2)))))
                              | _ => from_node f (Some t) ctrs child st
                              end
                          | Some false => from_node f (Some lr) ctrs child st
                          end
                      end) 0 kids (b, g)
          | _ => CPanic
          end
      | TQuant t _ _ | TLookAhead t =>
          match e with
          | Node _ _ cs => each (fun _ c st => from_node f (Some t) ctrs c st) 0 cs (b, g)
          | _ => CPanic
          end
      | TNamed n t =>
          cbind (new_counters (Some t)) (fun cc =>
          cbind (from_node f (Some t) cc e ([], g)) (fun '(b2, g2) =>
          cbind (badd n (ABranch b2) (ctr ctrs n) b) (fun b' => COk (b', g2))))
      | TREF i _ =>
          match e with
          | Leaf s => cbind (badd i (ALeaf s) (ctr ctrs i) b) (fun b' => COk (b', g))
          | Node _ _ cs =>
              cbind (each (fun _ c st => from_node f (Some term) ctrs c st) 0 cs ([], g)) (fun '(b2, g2) =>
              cbind (badd i (ABranch b2) (ctr ctrs i) b) (fun b' => COk (b', g2)))
          | Empty => COk (b, g)
          end
      | TCut t => from_node f (Some t) ctrs e (b, g)
      | TExtRef s =>
          match e with
          | Node _ (XBranch b2) _ => cbind (badd s (ABranch b2) (ctr ctrs s) b) (fun b' => COk (b', g))
          | _ => COk (b, g)
          end
      | TStack _ => CPanic
      end
    end
  end.

(** from_parsernode.go:21-34 [FromParserNode]; [Empty] fails the type assertion. *)
Definition from_parser_node (f : nat) (g : grammar) (e : tree) : cres (branch * grammar) :=
  match e with
  | Leaf s => COk ([(""%string, One (ALeaf s))], g)
  | Node tag _ _ =>
      let term := lookup tag g in
      cbind (new_counters term) (fun cc => from_node f term cc e ([("@rule"%string, One (AExtra (DRule tag)))], g))
  | Empty => CPanic
  end.

(** from_parsernode.go:11-17 [NewExtRefTreeElement]. *)
Definition ext_ref_tree (f : nat) (g : grammar) (e : tree) : cres (tree * grammar) :=
  cbind (from_parser_node f g e) (fun '(b, g') => COk (Node "extref" (XBranch b) [], g')).

(** * From ASTs back to parse trees *)

(** A parse tree that may hold nil children (the nil [TreeElement]). *)
Inductive otree :=
| ONode (tag : string) (x : extra) (cs : list otree)
| OLeaf (s : scanner)
| ONil.
Definition is_onil (t : otree) : bool := match t with ONil => true | _ => false end.
(** A tree without nil children. *)
Fixpoint otree_of (t : tree) : otree :=
  match t with
  | Node tag x cs => ONode tag x (map otree_of cs)
  | Leaf s => OLeaf s
  | Empty => ONil
  end.

(** to_parsernode.go:53-59 [pullFromOne]: [None] is nil. *)
Definition pull_one (name : string) (b : branch) : cres (option anode * branch) :=
  match lookup name b with
  | Some (One n) => COk (Some n, adel name b)
  | Some (Many _) => CPanic
  | None => COk (None, b)
  end.
(** to_parsernode.go:61-75 [pullFromMany]. *)
Definition pull_many (name : string) (b : branch) : cres (option anode * branch) :=
  match lookup name b with
  | Some (Many (n :: rest)) =>
      COk (Some n, match rest with [] => adel name b | _ => aset name (Many rest) b end)
  | Some (Many []) => COk (None, b)
  | Some (One _) => CPanic
  | None => COk (None, b)
  end.
(** to_parsernode.go:42-51 [pull]. *)
Definition pull (name : string) (c : counter) (b : branch) : cres (option anode * branch) :=
  match c with
  | (0, 0) => CPanic
  | (0, 1) | (1, 1) => pull_one name b
  | _ => pull_many name b
  end.

(** to_parsernode.go:19-25 [relabelNode]. *)
Definition relabel (name : string) (e : otree) : otree :=
  match e with ONode _ x cs => ONode name x cs | _ => e end.

(** terms.go:193-199 [MaxLessThan] and [Contains]. *)
Definition max_less_than (mx i : nat) : bool := (negb (Nat.eqb mx 0) && Nat.ltb mx i)%bool.
Definition quant_contains (mn mx i : nat) : bool := (Nat.leb mn i && negb (max_less_than mx i))%bool.

Section ToLoops.
  Variable run : term -> branch * grammar -> cres (otree * (branch * grammar)).
  (** to_parsernode.go:113-122: stops with nil at the first nil element. *)
  Fixpoint to_seq (ts : list term) (acc : list otree) (st : branch * grammar)
    : cres (otree * (branch * grammar)) :=
    match ts with
    | [] => COk (ONode seqTag XNone acc, st)
    | t :: ts' => cbind (run t st) (fun '(v, st') =>
        if is_onil v then COk (ONil, st') else to_seq ts' (acc ++ [v]) st')
    end.
  (** to_parsernode.go:133-150; [n] bounds the number of rounds. *)
  Fixpoint to_delim (n : nat) (t sep : term) (i : nat) (acc : list otree) (st : branch * grammar)
    : cres (otree * (branch * grammar)) :=
    match n with
    | O => CDiv
    | S n => cbind (run (if Nat.even i then t else sep) st) (fun '(v, st') =>
        if is_onil v
        then if Nat.even i then CPanic else COk (ONode delimTag (XAssoc NonAssociative) acc, st')
        else to_delim n t sep (S i) (acc ++ [v]) st')
    end.
  (** to_parsernode.go:151-163. *)
  Definition to_quant_end (mn mx : nat) (acc : list otree) (st : branch * grammar)
    : cres (otree * (branch * grammar)) :=
    if quant_contains mn mx (length acc) then COk (ONode quantTag XNone acc, st) else CPanic.
  Fixpoint to_quant (n : nat) (t : term) (mn mx i : nat) (acc : list otree) (st : branch * grammar)
    : cres (otree * (branch * grammar)) :=
    match n with
    | O => CDiv
    | S n =>
        if max_less_than mx i then to_quant_end mn mx acc st
        else cbind (run t st) (fun '(v, st') =>
          if is_onil v then to_quant_end mn mx acc st' else to_quant n t mn mx (S i) (acc ++ [v]) st')
    end.
End ToLoops.

(** to_parsernode.go:77-187 [toParserNode].  [expandNode] (lines 27-40) is the identity. *)
Fixpoint to_node (f : nat) (ot : option term) (ctrs : counters) (st : branch * grammar) {struct f}
  : cres (otree * (branch * grammar)) :=
  match f with
  | O => CDiv
  | S f =>
    let '(b, g) := st in
    match ot with
    | None => CPanic
    | Some term =>
      match term with
      | TS _ | TRE _ =>
          cbind (pull "" (ctr ctrs "") b) (fun '(n, b') =>
          match n with
          | None => COk (ONil, (b', g))
          | Some (ALeaf s) => COk (OLeaf s, (b', g))
          | Some _ => CPanic
          end)
      | TRule r =>
          let rule := lookup r g in
          cbind (unlevel r g) (fun ul =>
          cbind (pull (fst ul) (ctr ctrs r) b) (fun '(n, b') =>
          match n with
          | None => COk (ONil, (b', g))
          | Some n =>
              cbind (new_counters rule) (fun cc =>
              match n with
              | ABranch b2 => cbind (to_node f rule cc (b2, g)) (fun '(v, (_, g2)) => COk (relabel r v, (b', g2)))
              | ALeaf s => COk (OLeaf s, (b', g))
              | AExtra _ => CPanic
              end)
          end))
      | TScoped t nested => to_node f (Some t) ctrs (b, merge_rules g nested)
      | TSeq ts => to_seq (fun t st => to_node f (Some t) ctrs st) ts [] (b, g)
      | TOneof ts =>
          cbind (pull_many "@choice" b) (fun '(n, b') =>
          match n with
          | None => COk (ONil, (b', g))
          | Some (AExtra (DChoice i)) =>
              match nth_error ts i with
              | Some t => cbind (to_node f (Some t) ctrs (b', g)) (fun '(v, st') =>
                            COk (ONode oneofTag (XChoice i) [v], st'))
              | None => CPanic
              end
          | Some _ => CPanic
          end)
      | TDelim t sep _ _ _ => to_delim (fun t st => to_node f (Some t) ctrs st) f t sep 0 [] (b, g)
      | TQuant t mn mx => to_quant (fun t st => to_node f (Some t) ctrs st) f t mn mx 0 [] (b, g)
      | TNamed n t =>
          cbind (new_counters (Some t)) (fun cc =>
          cbind (pull n (ctr ctrs n) b) (fun '(x, b') =>
          match x with
          | None => COk (ONil, (b', g))
          | Some (ABranch b2) => cbind (to_node f (Some t) cc (b2, g)) (fun '(v, (_, g2)) => COk (relabel n v, (b', g2)))
          | Some (ALeaf s) => COk (OLeaf s, (b', g))
          | Some (AExtra _) => CPanic
          end))
      | TCut t | TLookAhead t => to_node f (Some t) ctrs (b, g)
      | TREF _ _ | TExtRef _ | TStack _ => CPanic
      end
    end
  end.

(** to_parsernode.go:10-17 [ToParserNode]; the clone (node.go:131-157) is invisible here.
    Without a "@rule" child that holds a rule name the type assertions panic. *)
Definition to_parser_node (f : nat) (g : grammar) (b : branch) : cres (otree * grammar) :=
  cbind (pull_one "@rule" b) (fun '(n, b') =>
  match n with
  | Some (AExtra (DRule r)) =>
      let term := lookup r g in
      cbind (new_counters term) (fun cc =>
      cbind (to_node f term cc (b', g)) (fun '(v, (_, g')) => COk (relabel r v, g')))
  | _ => CPanic
  end).

(** * Scanners and comparison *)

(** from_parsernode.go:60-81 [oneChild]: for a branch of one entry.  Keys starting with "@"
    do not count. *)
Definition at_name (k : string) : bool := match k with String "@" _ => true | _ => false end.
Definition one_child (b : branch) : option anode :=
  match filter (fun kv : string * children anode => negb (at_name (fst kv))) b with
  | [(_, One n)] => Some n
  | [(_, Many [n])] => Some n
  | _ => None
  end.

(** The merging loop's input: scanners that are not nil. *)
Definition not_nil (s : scanner) : bool := negb (is_nil s).
(** node_string.go:117-132 and 163-171: merge, or the zero scanner when there is none. *)
Definition merge_or_zero (l : list scanner) : option scanner :=
  match l with [] => Some zero_scanner | _ => merge_scanners l end.

Fixpoint oseq {A} (l : list (option A)) : option (list A) :=
  match l with
  | [] => Some []
  | Some x :: l' => match oseq l' with Some xs => Some (x :: xs) | None => None end
  | None :: _ => None
  end.

(** node_string.go:113-172 [Scanner]; [None] is a panic.  The entries of a branch are
    visited in list order; [C34] is about every order. *)
Fixpoint node_scanner (n : anode) : option scanner :=
  match n with
  | ALeaf s => Some s
  | AExtra _ => None
  | ABranch b =>
      let many_scanner := fun ns => match oseq (map node_scanner ns) with
                                    | Some l => merge_or_zero l
                                    | None => None
                                    end in
      let whole :=
        match oseq (flat_map (fun kv : string * children anode =>
                                if at_name (fst kv) then []
                                else [match snd kv with One n => node_scanner n | Many ns => many_scanner ns end]) b) with
        | Some l => merge_or_zero (filter not_nil l)
        | None => None
        end in
      match b with
      | [(k, One n)] => if at_name k then whole else node_scanner n
      | [(k, Many [n])] => if at_name k then whole else node_scanner n
      | _ => whole
      end
  end.

(** Go's == on [Extra.Data]. *)
Definition data_eqb (a b : adata) : bool :=
  match a, b with
  | DRule x, DRule y | DString x, DString y => String.eqb x y
  | DChoice x, DChoice y => Nat.eqb x y
  | DInt x, DInt y => Z.eqb x y
  | _, _ => false
  end.
Definition obytes_eqb (a b : option bytes) : bool :=
  match a, b with Some x, Some y => beqb x y | _, _ => false end.

(** node.go:79-96 [Branch.One], [Branch.Many]. *)
Definition get_one (b : branch) (k : string) : option anode :=
  match lookup k b with Some (One n) => Some n | _ => None end.
Definition get_many (b : branch) (k : string) : list anode :=
  match lookup k b with Some (Many ns) => ns | _ => [] end.

Section AllPairs.
  Context {A : Type} (f : A -> A -> bool).
  Fixpoint all_pairs (l m : list A) : bool :=
    match l, m with
    | [], [] => true
    | x :: l', y :: m' => (f x y && all_pairs l' m')%bool
    | _, _ => false
    end.
End AllPairs.

(** node.go:187-232 [ContentEquals].  [Scanner.String] cannot panic on the sources the
    model has.  Comparing with the nil node gives false. *)
Fixpoint content_equals (a b : anode) : bool :=
  match a, b with
  | ALeaf s, ALeaf s' => obytes_eqb (sstring s) (sstring s')
  | AExtra d, AExtra d' => data_eqb d d'
  | ABranch l, ABranch m =>
      (Nat.eqb (length l) (length m) &&
       forallb (fun kv : string * children anode =>
                  match snd kv with
                  | One n => match get_one m (fst kv) with Some n' => content_equals n n' | None => false end
                  | Many ns => all_pairs content_equals ns (get_many m (fst kv))
                  end) l)%bool
  | _, _ => false
  end.
