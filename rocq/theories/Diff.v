(** Comparing grammars and parse trees (parser/diff).  [None] is a Go panic throughout.
    Slices and maps are taken to be non-nil, as compile.go builds them. *)
From Verif Require Import Base Scanner Syntax.

(** diff/terms.go: the report types.  [DTypes] is [TypesDiffer]; [DTerms] is [SeqDiff],
    [OneofDiff] and [TowerDiff]; an [InterfaceDiff] is represented by the two values compared,
    which is what its [Equal] depends on (terms.go:96-109: equal values are stored as two zero
    values). *)
Inductive tdiff :=
| DTypes
| DRules (a b : string)
| DSes (a b : bytes)
| DREs (a b : bytes)
| DRefs (ia ib : string) (da db : option bytes)
| DTerms (la lb : nat) (ds : list tdiff)
| DDelim (t sep : tdiff) (aa ab : assoc) (sa sb ea eb : bool)
| DQuant (t : tdiff) (na nb xa xb : nat)
| DNamed (na nb : string) (t : tdiff)
| DScoped (t : tdiff) (onlya onlyb : list string) (prods : list (string * tdiff)).

(** terms.go:113-117 [GrammarDiff]. *)
Record gdiff := GDiff { only_a : list string; only_b : list string; prods : list (string * tdiff) }.

(** terms.go:119-121 [GrammarDiff.Equal]. *)
Definition gdiff_equal (d : gdiff) : bool :=
  Nat.eqb (length (only_a d)) 0 && Nat.eqb (length (only_b d)) 0 && Nat.eqb (length (prods d)) 0.

Definition assoc_eqb (a b : assoc) : bool :=
  match a, b with
  | RightToLeft, RightToLeft | NonAssociative, NonAssociative | LeftToRight, LeftToRight => true
  | _, _ => false
  end.

(** Go [&&] with operands that may panic. *)
Definition andthen (x : option bool) (y : option bool) : option bool :=
  match x with Some true => y | Some false => Some false | None => None end.

(** The [Equal] methods.  For REFs (terms.go:254-259) the defaults are compared by [Terms],
    which panics in [reflect.TypeOf(nil).String()] when only one is nil (terms.go:164-170). *)
Fixpoint tdiff_equal (d : tdiff) : option bool :=
  match d with
  | DTypes => Some false
  | DRules a b => Some (String.eqb a b)
  | DSes a b => Some (beqb a b)
  | DREs a b => Some (beqb a b)
  | DRefs ia ib da db =>
      if String.eqb ia ib then
        match da, db with
        | None, None => Some true
        | Some x, Some y => Some (beqb x y)
        | _, _ => None
        end
      else Some false
  | DTerms la lb ds => Some (Nat.eqb la lb && Nat.eqb (length ds) 0)
  | DDelim t sep aa ab sa sb ea eb =>
      andthen (tdiff_equal t) (andthen (tdiff_equal sep) (Some (assoc_eqb aa ab && Bool.eqb sa sb && Bool.eqb ea eb)))
  | DQuant t na nb xa xb => andthen (tdiff_equal t) (Some (Nat.eqb na nb && Nat.eqb xa xb))
  | DNamed na nb t => if String.eqb na nb then tdiff_equal t else Some false
  | DScoped t oa ob ps => andthen (tdiff_equal t) (Some (gdiff_equal (GDiff oa ob ps)))
  end.

(** [reflect.DeepEqual] on terms and grammars; maps are compared without regard to order. *)
Fixpoint deep_equal (a b : term) {struct a} : bool :=
  let list_eq := fix go (xs ys : list term) {struct xs} : bool :=
    match xs, ys with
    | [], [] => true
    | x :: xs', y :: ys' => deep_equal x y && go xs' ys'
    | _, _ => false
    end in
  match a, b with
  | TRule x, TRule y => String.eqb x y
  | TS x, TS y => beqb x y
  | TRE x, TRE y => beqb x y
  | TREF x dx, TREF y dy =>
      String.eqb x y && match dx, dy with None, None => true | Some p, Some q => beqb p q | _, _ => false end
  | TExtRef x, TExtRef y => String.eqb x y
  | TSeq xs, TSeq ys => list_eq xs ys
  | TOneof xs, TOneof ys => list_eq xs ys
  | TStack xs, TStack ys => list_eq xs ys
  | TDelim x sx ax cx ex, TDelim y sy ay cy ey =>
      deep_equal x y && deep_equal sx sy && assoc_eqb ax ay && Bool.eqb cx cy && Bool.eqb ex ey
  | TLookAhead x, TLookAhead y => deep_equal x y
  | TQuant x nx mx, TQuant y ny my => deep_equal x y && Nat.eqb nx ny && Nat.eqb mx my
  | TNamed nx x, TNamed ny y => String.eqb nx ny && deep_equal x y
  | TScoped x gx, TScoped y gy =>
      deep_equal x y && Nat.eqb (length gx) (length gy) &&
      (fix go (g : list (string * term)) : bool :=
         match g with
         | [] => true
         | (k, v) :: g' => match lookup k gy with Some w => deep_equal v w | None => false end && go g'
         end) gx
  | TCut x, TCut y => deep_equal x y
  | _, _ => false
  end.

Definition deep_equal_grammar (a b : grammar) : bool :=
  Nat.eqb (length a) (length b) &&
  forallb (fun kv : string * term => match lookup (fst kv) b with Some w => deep_equal (snd kv) w | None => false end) a.

(** terms.go:163-204 [Terms], with diffTermses (276-293), diffDelims, diffQuants, diffNameds,
    diffScopedGrammars and [Grammars] (123-147) unfolded where they recur.  Note the external
    references at 195-196, where the first one is compared with itself. *)
Fixpoint terms (a b : term) {struct a} : option tdiff :=
  let termses := fix go (xs ys : list term) {struct xs} : option (list tdiff) :=
    match xs, ys with
    | x :: xs', y :: ys' =>
        match terms x y with
        | None => None
        | Some td =>
            match tdiff_equal td with
            | None => None
            | Some e => match go xs' ys' with None => None | Some ds => Some (if e then ds else td :: ds) end
            end
        end
    | _, _ => Some []
    end in
  let lists xs ys := match termses xs ys with
                     | Some ds => Some (DTerms (length xs) (length ys) ds)
                     | None => None
                     end in
  match a, b with
  | TRule x, TRule y => Some (DRules x y)
  | TS x, TS y => Some (DSes x y)
  | TRE x, TRE y => Some (DREs x y)
  | TSeq xs, TSeq ys => lists xs ys
  | TOneof xs, TOneof ys => lists xs ys
  | TStack xs, TStack ys => lists xs ys
  | TDelim x sx ax cx ex, TDelim y sy ay cy ey =>
      match terms x y with
      | None => None
      | Some t => match terms sx sy with
                  | None => None
                  | Some s => Some (DDelim t s ax ay cx cy ex ey)
                  end
      end
  | TQuant x nx mx, TQuant y ny my =>
      match terms x y with None => None | Some t => Some (DQuant t nx ny mx my) end
  | TNamed nx x, TNamed ny y =>
      match terms x y with None => None | Some t => Some (DNamed nx ny t) end
  | TScoped x gx, TScoped y gy =>
      match terms x y with
      | None => None
      | Some t =>
          match (fix go (g : list (string * term)) : option gdiff :=
                   match g with
                   | [] => Some (GDiff [] (filter (fun k => negb (has k gx)) (keys gy)) [])
                   | (k, v) :: g' =>
                       match lookup k gy with
                       | None => match go g' with
                                 | None => None
                                 | Some d => Some (GDiff (k :: only_a d) (only_b d) (prods d))
                                 end
                       | Some w =>
                           match terms v w with
                           | None => None
                           | Some td =>
                               match tdiff_equal td with
                               | None => None
                               | Some e => match go g' with
                                           | None => None
                                           | Some d => if e then Some d
                                                       else Some (GDiff (only_a d) (only_b d) ((k, td) :: prods d))
                                           end
                               end
                           end
                       end
                   end) gx with
          | None => None
          | Some d =>
              (* terms.go:141-145 *)
              if Bool.eqb (gdiff_equal d) (deep_equal_grammar gx gy)
              then Some (DScoped t (only_a d) (only_b d) (prods d)) else None
          end
      end
  | TCut x, TCut y => terms x y
  | TExtRef x, TExtRef _ => Some (DSes (bs x) (bs x))
  | TREF x dx, TREF y dy => Some (DRefs x y dx dy)
  | TLookAhead x, TLookAhead y => terms x y
  | _, _ => Some DTypes
  end.

(** terms.go:127-140, the loop over the rules of [a] in the order of the list, followed by the
    rules of [b] alone. *)
Fixpoint diff_rules (a b : grammar) (g : list (string * term)) : option gdiff :=
  match g with
  | [] => Some (GDiff [] (filter (fun k => negb (has k a)) (keys b)) [])
  | (k, v) :: g' =>
      match lookup k b with
      | None => match diff_rules a b g' with
                | None => None
                | Some d => Some (GDiff (k :: only_a d) (only_b d) (prods d))
                end
      | Some w =>
          match terms v w with
          | None => None
          | Some td =>
              match tdiff_equal td with
              | None => None
              | Some e => match diff_rules a b g' with
                          | None => None
                          | Some d => if e then Some d
                                      else Some (GDiff (only_a d) (only_b d) ((k, td) :: prods d))
                          end
              end
          end
      end
  end.

(** terms.go:123-147 [Grammars]. *)
Definition grammars (a b : grammar) : option gdiff :=
  match diff_rules a b a with
  | None => None
  | Some d => if Bool.eqb (gdiff_equal d) (deep_equal_grammar a b) then Some d else None
  end.

(** diff/nodes.go:12-16 [NodeDiff]: the two nodes and the differing children by index.  The
    [Types] map always stays empty because both types are taken from the same node
    (nodes.go:65-66). *)
Inductive ndiff := NDiff (a b : string * extra * list tree) (ds : list (nat * ndiff)).

Definition extra_eqb (x y : extra) : option bool :=
  match x, y with
  | XNone, XNone => Some true
  | XChoice a, XChoice b => Some (Nat.eqb a b)
  | XAssoc a, XAssoc b => Some (assoc_eqb a b)
  | XBranch _, XBranch _ => None   (* comparing two maps panics *)
  | _, _ => Some false
  end.

(** nodes.go:49-55 [NodeDiff.Equal]. *)
Definition ndiff_equal (d : ndiff) : option bool :=
  let 'NDiff (ta, xa, ca) (tb, xb, cb) ds := d in
  if Nat.eqb (length ca) (length cb) && String.eqb ta tb
  then andthen (extra_eqb xa xb) (Some (Nat.eqb (length ds) 0))
  else Some false.

(** nodes.go:57-82 [NewNodeDiff]; the first argument is always a node.  [i] is the index of the
    first child in [xs].  A node child facing something else is a failed type assertion
    (nodes.go:70). *)
Fixpoint node_diff (a : tree) (b : string * extra * list tree) {struct a} : option ndiff :=
  match a with
  | Node t x cs =>
      match (fix go (i : nat) (xs ys : list tree) {struct xs} : option (list (nat * ndiff)) :=
               match xs, ys with
               | x :: xs', y :: ys' =>
                   match x with
                   | Node _ _ _ =>
                       match y with
                       | Node ty ey cy =>
                           match node_diff x (ty, ey, cy) with
                           | None => None
                           | Some d =>
                               match ndiff_equal d with
                               | None => None
                               | Some e => match go (S i) xs' ys' with
                                           | None => None
                                           | Some ds => Some (if e then ds else (i, d) :: ds)
                                           end
                               end
                           end
                       | _ => None
                       end
                   | _ => go (S i) xs' ys'
                   end
               | _, _ => Some []
               end) O cs (snd b) with
      | None => None
      | Some ds => Some (NDiff (t, x, cs) b ds)
      end
  | _ => None
  end.
