(** What the ast package is about, said without its counters and maps. *)
From Verif Require Import Base Scanner ScannerSpec Syntax PegSpec.

(** * Reading the leaves of an AST *)

(** [l] is an interleaving of the lists [ls]: repeatedly take the head of one of them. *)
Inductive interleave {A} : list (list A) -> list A -> Prop :=
| il_done : forall ls, Forall (eq []) ls -> interleave ls []
| il_take : forall ls1 x l ls2 rest, interleave (ls1 ++ l :: ls2) rest ->
    interleave (ls1 ++ (x :: l) :: ls2) (x :: rest).

(** [reads n l]: [l] lists the leaves below [n], each once; the children of a branch are read one
    after another, those under one name in their order; how the names interleave is open. *)
Inductive reads : anode -> list scanner -> Prop :=
| rd_leaf : forall s, reads (ALeaf s) [s]
| rd_extra : forall d, reads (AExtra d) []
| rd_branch : forall b ls l, Forall2 (fun kv => reads_kids (snd kv)) b ls -> interleave ls l ->
    reads (ABranch b) (concat l)
with reads_kids : children anode -> list (list scanner) -> Prop :=
| rk_one : forall n l, reads n l -> reads_kids (One n) [l]
| rk_many : forall ns ls, Forall2 reads ns ls -> reads_kids (Many ns) ls.

(** Trees as parsing makes them: choices have one child, no tree of an external parser. *)
Fixpoint regular (t : tree) : Prop :=
  match t with
  | Node _ x cs =>
      match x with XBranch _ => False | XChoice _ => length cs = 1 | _ => True end /\
      (fix all (l : list tree) : Prop := match l with [] => True | y :: l' => regular y /\ all l' end) cs
  | Leaf _ | Empty => True
  end.

(** No external references, also in nested grammars. *)
Fixpoint no_ext (t : term) : bool :=
  match t with
  | TRule _ | TS _ | TRE _ | TREF _ _ => true
  | TExtRef _ => false
  | TSeq ts | TOneof ts | TStack ts => forallb no_ext ts
  | TDelim t sep _ _ _ => no_ext t && no_ext sep
  | TLookAhead t | TQuant t _ _ | TNamed _ t | TCut t => no_ext t
  | TScoped t g => no_ext t && forallb (fun kv => no_ext (snd kv)) g
  end.
Definition no_ext_grammar (g : grammar) : bool := forallb (fun kv => no_ext (snd kv)) g.

(** No nested grammars. *)
Fixpoint no_scoped (t : term) : bool :=
  match t with
  | TRule _ | TS _ | TRE _ | TREF _ _ | TExtRef _ => true
  | TSeq ts | TOneof ts | TStack ts => forallb no_scoped ts
  | TDelim t sep _ _ _ => no_scoped t && no_scoped sep
  | TLookAhead t | TQuant t _ _ | TNamed _ t | TCut t => no_scoped t
  | TScoped _ _ => false
  end.
Definition no_scoped_grammar (g : grammar) : bool := forallb (fun kv => no_scoped (snd kv)) g.

(** * Equal content *)

(** The same data, the same texts whatever their place, the same names on either side. *)
Inductive same_content : anode -> anode -> Prop :=
| sc_leaf : forall s s' t, sstring s = Some t -> sstring s' = Some t -> same_content (ALeaf s) (ALeaf s')
| sc_extra : forall d, same_content (AExtra d) (AExtra d)
| sc_branch : forall l m,
    (forall k c, In (k, c) l -> exists c', In (k, c') m /\ same_kids c c') ->
    (forall k c', In (k, c') m -> exists c, In (k, c) l) ->
    same_content (ABranch l) (ABranch m)
with same_kids : children anode -> children anode -> Prop :=
| sk_one : forall n n', same_content n n' -> same_kids (One n) (One n')
| sk_many : forall ns ns', Forall2 same_content ns ns' -> same_kids (Many ns) (Many ns').

(** Branches are maps (no name twice), no name has an empty list of children, every leaf has
    a text. *)
Inductive filled : anode -> Prop :=
| fi_leaf : forall s t, sstring s = Some t -> filled (ALeaf s)
| fi_extra : forall d, filled (AExtra d)
| fi_branch : forall b, NoDup (keys b) -> Forall (fun kv => filled_kids (snd kv)) b -> filled (ABranch b)
with filled_kids : children anode -> Prop :=
| fk_one : forall n, filled n -> filled_kids (One n)
| fk_many : forall n ns, Forall filled (n :: ns) -> filled_kids (Many (n :: ns)).

(** * Ranges *)

(** The leaves that count for the range of a node: those not below an "@" name. *)
Fixpoint shown (n : anode) : list scanner :=
  match n with
  | ALeaf s => [s]
  | AExtra _ => []
  | ABranch b => flat_map (fun kv : string * children anode =>
      if prefix "@" (fst kv) then []
      else match snd kv with One n => shown n | Many ns => flat_map shown ns end) b
  end.

(** [s] is the least range that covers all of [l]. *)
Definition least_cover (l : list scanner) (s : scanner) : Prop :=
  (forall x, In x l -> covers s x) /\ (forall c, (forall x, In x l -> covers c x) -> covers c s).

(** Every leaf is a part of [o]; below names other than "@..." there is no bare data, and in
    a list of children either every child has leaves or none has. *)
Inductive even (o : source) : anode -> Prop :=
| ev_leaf : forall s, src s = Some o -> even o (ALeaf s)
| ev_branch : forall b,
    (forall k c, In (k, c) b -> prefix "@" k = false -> even_kids o c) -> even o (ABranch b)
with even_kids (o : source) : children anode -> Prop :=
| ek_one : forall n, even o n -> even_kids o (One n)
| ek_many : forall ns, Forall (even o) ns ->
    (Forall (fun n => shown n = []) ns \/ Forall (fun n => shown n <> []) ns) -> even_kids o (Many ns).

(** The same AST with the entries of its branches in another order. *)
Inductive reshuffled : anode -> anode -> Prop :=
| rs_leaf : forall s, reshuffled (ALeaf s) (ALeaf s)
| rs_extra : forall d, reshuffled (AExtra d) (AExtra d)
| rs_branch : forall b b' c, Forall2 (fun x y : string * children anode => fst x = fst y /\ reshuffled_kids (snd x) (snd y)) b b' ->
    Permutation b' c -> reshuffled (ABranch b) (ABranch c)
with reshuffled_kids : children anode -> children anode -> Prop :=
| rsk_one : forall n n', reshuffled n n' -> reshuffled_kids (One n) (One n')
| rsk_many : forall ns ns', Forall2 reshuffled ns ns' -> reshuffled_kids (Many ns) (Many ns').

(** * Trees of a grammar, and the child names they use *)

(** The innermost grammar that defines [r], with the definition. *)
Inductive defines : grammars -> string -> grammars -> term -> Prop :=
| df_here : forall g gs r t, lookup r g = Some t -> defines (g :: gs) r (g :: gs) t
| df_outer : forall g gs r gs' t, lookup r g = None -> defines gs r gs' t -> defines (g :: gs) r gs' t.

(** Trees that repeat a value: nothing from outside, nothing left out. *)
Inductive repeating : tree -> Prop :=
| rp_leaf : forall s, repeating (Leaf s)
| rp_node : forall tag x cs, Forall repeating cs -> repeating (Node tag x cs).

(** [fits gs t v ks]: [v] has the shape [t] prescribes (texts, tags and greed play no role).
    [ks]: the names of the children it gives to the rule or named term it belongs to, in
    order; a literal or regexp gives a nameless child. *)
Inductive fits : grammars -> term -> tree -> list string -> Prop :=
| ft_lit : forall gs x s, fits gs (TS x) (Leaf s) [""%string]
| ft_re : forall gs x s, fits gs (TRE x) (Leaf s) [""%string]
| ft_named : forall gs n t v ks, fits gs t v ks -> fits gs (TNamed n t) v [n]
| ft_rule : forall gs r gs' t v ks, defines gs r gs' t -> fits gs' t v ks -> fits gs (TRule r) v [r]
| ft_ref : forall gs i d v, repeating v -> fits gs (TREF i d) v [i]
| ft_cut : forall gs t v ks, fits gs t v ks -> fits gs (TCut t) v ks
| ft_scoped : forall gs t g v ks, fits (g :: gs) t v ks -> fits gs (TScoped t g) v ks
| ft_seq : forall gs ts tag cs ks, fits_all gs ts cs ks -> fits gs (TSeq ts) (Node tag XNone cs) ks
| ft_alt : forall gs ts tag i t v ks, nth_error ts i = Some t -> fits gs t v ks ->
    fits gs (TOneof ts) (Node tag (XChoice i) [v]) ks
| ft_rep : forall gs t mn mx tag cs ks, fits_many gs t cs ks -> mn <= length cs -> (mx = 0 \/ length cs <= mx) ->
    fits gs (TQuant t mn mx) (Node tag XNone cs) ks
| ft_look : forall gs t tag v ks, fits gs t v ks -> fits gs (TLookAhead t) (Node tag XNone [v]) ks
| ft_list : forall gs t sep a cs ce tag items ks, fits_turns gs t sep items ks ->
    fits gs (TDelim t sep a cs ce) (Node tag (XAssoc NonAssociative) items) ks
with fits_all : grammars -> list term -> list tree -> list string -> Prop :=
| fa_nil : forall gs, fits_all gs [] [] []
| fa_cons : forall gs t ts v cs k ks, fits gs t v k -> fits_all gs ts cs ks -> fits_all gs (t :: ts) (v :: cs) (k ++ ks)
with fits_many : grammars -> term -> list tree -> list string -> Prop :=
| fm_nil : forall gs t, fits_many gs t [] []
| fm_cons : forall gs t v cs k ks, fits gs t v k -> fits_many gs t cs ks -> fits_many gs t (v :: cs) (k ++ ks)
with fits_turns : grammars -> term -> term -> list tree -> list string -> Prop :=
| fn_nil : forall gs t sep, fits_turns gs t sep [] []
| fn_skip : forall gs t sep cs ks, fits_turns gs sep t cs ks -> fits_turns gs t sep (Empty :: cs) ks
| fn_take : forall gs t sep v cs k ks, fits gs t v k -> fits_turns gs sep t cs ks ->
    fits_turns gs t sep (v :: cs) (k ++ ks).

Scheme fits_mut := Minimality for fits Sort Prop
  with fits_all_mut := Minimality for fits_all Sort Prop
  with fits_many_mut := Minimality for fits_many Sort Prop
  with fits_turns_mut := Minimality for fits_turns Sort Prop.
Combined Scheme fits_mutind from fits_mut, fits_all_mut, fits_many_mut, fits_turns_mut.

(** The children that an AST has under a name. *)
Definition children_at (k : string) (b : branch) : list anode :=
  match lookup k b with Some (One n) => [n] | Some (Many ns) => ns | None => [] end.

(** * Grammars whose trees convert *)

(** The names a term can give children to, at its own level. *)
Fixpoint names_of (t : term) : list string :=
  match t with
  | TS _ | TRE _ => [""%string]
  | TRule r => [r]
  | TNamed n _ => [n]
  | TREF i _ => [i]
  | TExtRef s => [s]
  | TSeq ts | TOneof ts | TStack ts => flat_map names_of ts
  | TDelim t sep _ _ _ => names_of t ++ names_of sep
  | TLookAhead t | TQuant t _ _ | TCut t | TScoped t _ => names_of t
  end.

(** A name up to its first "@": the layers of a stack a are called a, a@1, a@2 and so on. *)
Fixpoint stem (n : string) : string :=
  match n with
  | EmptyString => EmptyString
  | String c n' => if Ascii.eqb c "@" then EmptyString else String c (stem n')
  end.
Fixpoint after_at (n : string) : string :=
  match n with
  | EmptyString => EmptyString
  | String c n' => if Ascii.eqb c "@" then n' else after_at n'
  end.
Definition digit (c : ascii) : bool := (48 <=? nat_of_ascii c) && (nat_of_ascii c <=? 57).
Definition wordy (c : ascii) : bool :=
  digit c || ((65 <=? nat_of_ascii c) && (nat_of_ascii c <=? 90)) || ((97 <=? nat_of_ascii c) && (nat_of_ascii c <=? 122))
  || Ascii.eqb c "_".
(** An ordinary name has no "@". *)
Definition ordinary (n : string) : bool := String.eqb (stem n) n.
(** A layer: a word, "@", a number of at most 18 digits. *)
Definition layered (n : string) : bool :=
  negb (String.eqb (stem n) "") && forallb wordy (bs (stem n)) &&
  negb (String.eqb (after_at n) "") && forallb digit (bs (after_at n)) && (String.length (after_at n) <=? 18).

(** No two different names of the level have the same stem. *)
Definition unmixed (t : term) : Prop := forall m n, In m (names_of t) -> In n (names_of t) -> stem m = stem n -> m = n.

Definition is_delim (t : term) : bool := match t with TDelim _ _ _ _ _ => true | _ => false end.

(** No stacks, external references, associative lists or lists separated by lists; names
    are fit, and levels of a stack are not mixed. *)
Inductive smooth : term -> Prop :=
| sm_lit : forall x, smooth (TS x)
| sm_re : forall x, smooth (TRE x)
| sm_rule : forall r, r <> WrapRE -> ordinary r = true \/ layered r = true -> smooth (TRule r)
| sm_ref : forall i d, ordinary i = true -> smooth (TREF i d)
| sm_named : forall n t, ordinary n = true -> unmixed t -> smooth t -> smooth (TNamed n t)
| sm_seq : forall ts, Forall smooth ts -> smooth (TSeq ts)
| sm_alt : forall ts, Forall smooth ts -> smooth (TOneof ts)
| sm_list : forall t sep cs ce, smooth t -> smooth sep -> is_delim sep = false ->
    smooth (TDelim t sep NonAssociative cs ce)
| sm_look : forall t, smooth t -> smooth (TLookAhead t)
| sm_rep : forall t mn mx, smooth t -> smooth (TQuant t mn mx)
| sm_cut : forall t, smooth t -> smooth (TCut t)
| sm_scoped : forall t g, smooth t -> Forall (fun kv => smooth (snd kv) /\ unmixed (snd kv)) g -> smooth (TScoped t g).
Definition smooth_grammar (g : grammar) : Prop := Forall (fun kv => smooth (snd kv) /\ unmixed (snd kv)) g.

(** All rules of a grammar, those of nested grammars included. *)
Fixpoint inner_rules (t : term) : list (string * term) :=
  match t with
  | TRule _ | TS _ | TRE _ | TREF _ _ | TExtRef _ => []
  | TSeq ts | TOneof ts | TStack ts => flat_map inner_rules ts
  | TDelim t sep _ _ _ => inner_rules t ++ inner_rules sep
  | TLookAhead t | TQuant t _ _ | TNamed _ t | TCut t => inner_rules t
  | TScoped t g => inner_rules t ++ g ++ flat_map (fun kv : string * term => inner_rules (snd kv)) g
  end.
Definition all_rules (g : grammar) : list (string * term) :=
  g ++ flat_map (fun kv : string * term => inner_rules (snd kv)) g.
(** A rule name means the same everywhere (but for .wrapRE). *)
Definition coherent (g : grammar) : Prop :=
  forall k t t', In (k, t) (all_rules g) -> In (k, t') (all_rules g) -> k <> WrapRE -> t = t'.

(** The node of such a term is tagged with the name of the rule it is the body of. *)
Fixpoint own_tag (t : term) : bool :=
  match t with
  | TNamed _ _ | TREF _ _ | TRule _ | TExtRef _ => false
  | TCut t | TScoped t _ => own_tag t
  | _ => true
  end.

(** A node that is no list. *)
Definition no_list (v : tree) : Prop := exists tag x cs, v = Node tag x cs /\ forall a, x <> XAssoc a.

(** * Grammars whose ASTs can be turned back *)

(** The keys of an AST that a term fills at its own level. *)
Fixpoint keys_of (t : term) : list string :=
  match t with
  | TS _ | TRE _ => [""%string]
  | TRule r => [stem r]
  | TNamed n _ => [n]
  | TREF i _ => [i]
  | TExtRef s => [s]
  | TSeq ts | TStack ts => flat_map keys_of ts
  | TOneof ts => "@choice"%string :: flat_map keys_of ts
  | TDelim t sep _ _ _ => keys_of t ++ keys_of sep
  | TLookAhead t | TQuant t _ _ | TCut t | TScoped t _ => keys_of t
  end.

(** The key that every tree of the term fills first. *)
Fixpoint guard (t : term) : option string :=
  match t with
  | TS _ | TRE _ => Some ""%string
  | TRule r => Some (stem r)
  | TNamed n _ => Some n
  | TCut t => guard t
  | TSeq (t :: _) => guard t
  | TOneof _ => Some "@choice"%string
  | _ => None
  end.

Definition token_rule (g : grammar) (t : term) : Prop :=
  exists r x, t = TRule r /\ (lookup r g = Some (TS x) \/ lookup r g = Some (TRE x)).

(** [regains g after t]: every repetition in [t] starts with a key that nothing after it
    fills, given that the keys in [after] are filled later at the same level.  No look-ahead,
    reference, scope or optional separator, and named terms keep their tag. *)
Inductive regains (g : grammar) : list string -> term -> Prop :=
| rg_lit : forall a x, regains g a (TS x)
| rg_re : forall a x, regains g a (TRE x)
| rg_rule : forall a r, regains g a (TRule r)
| rg_named : forall a n t, n <> ""%string -> own_tag t = true \/ token_rule g t -> regains g [] t -> regains g a (TNamed n t)
| rg_nil : forall a, regains g a (TSeq [])
| rg_cons : forall a t ts, regains g (flat_map keys_of ts ++ a) t -> regains g a (TSeq ts) -> regains g a (TSeq (t :: ts))
| rg_alt : forall a ts, Forall (regains g a) ts -> regains g a (TOneof ts)
| rg_rep : forall a t mn mx k, guard t = Some k -> ~ In k a ->
    regains g ((if Nat.eqb mx 1 then [] else keys_of t) ++ a) t -> regains g a (TQuant t mn mx)
| rg_list : forall a t sep k, guard sep = Some k -> ~ In k a ->
    regains g (keys_of t ++ keys_of sep ++ a) t -> regains g (keys_of t ++ keys_of sep ++ a) sep ->
    regains g a (TDelim t sep NonAssociative false false)
| rg_cut : forall a t, regains g a t -> regains g a (TCut t).

Definition regained (g : grammar) : Prop :=
  Forall (fun kv => fst kv <> ""%string /\ own_tag (snd kv) = true /\ regains g [] (snd kv)) g.

(** [shaped g r t v]: [v] has the shape [t] prescribes, tags included, for the rule or named
    term [r] ("" when [t] is part of another term). *)
Inductive shaped (g : grammar) : string -> term -> tree -> Prop :=
| sh_lit : forall r x s, shaped g r (TS x) (Leaf s)
| sh_re : forall r x s, shaped g r (TRE x) (Leaf s)
| sh_named : forall r n t v, shaped g n t v -> shaped g r (TNamed n t) v
| sh_rule : forall r x t v, lookup x g = Some t -> shaped g x t v -> shaped g r (TRule x) v
| sh_seq : forall r ts cs, shaped_all g ts cs -> shaped g r (TSeq ts) (Node (tag_or r seqTag) XNone cs)
| sh_alt : forall r ts i t v, nth_error ts i = Some t -> shaped g "" t v ->
    shaped g r (TOneof ts) (Node (tag_or r oneofTag) (XChoice i) [v])
| sh_rep : forall r t mn mx cs, shaped_many g t cs -> mn <= length cs -> (mx = 0 \/ length cs <= mx) ->
    shaped g r (TQuant t mn mx) (Node (tag_or r quantTag) XNone cs)
| sh_list : forall r t sep v cs, shaped g "" t v -> shaped_pairs g t sep cs ->
    shaped g r (TDelim t sep NonAssociative false false) (Node (tag_or r delimTag) (XAssoc NonAssociative) (v :: cs))
| sh_cut : forall r t v, shaped g r t v -> shaped g r (TCut t) v
with shaped_all (g : grammar) : list term -> list tree -> Prop :=
| sa_nil : shaped_all g [] []
| sa_cons : forall t ts v cs, shaped g "" t v -> shaped_all g ts cs -> shaped_all g (t :: ts) (v :: cs)
with shaped_many (g : grammar) : term -> list tree -> Prop :=
| sm_none : forall t, shaped_many g t []
| sm_more : forall t v cs, shaped g "" t v -> shaped_many g t cs -> shaped_many g t (v :: cs)
with shaped_pairs (g : grammar) : term -> term -> list tree -> Prop :=
| sp_nil : forall t sep, shaped_pairs g t sep []
| sp_cons : forall t sep s x cs, shaped g "" sep s -> shaped g "" t x -> shaped_pairs g t sep cs ->
    shaped_pairs g t sep (s :: x :: cs).

Scheme shaped_mut := Minimality for shaped Sort Prop
  with shaped_all_mut := Minimality for shaped_all Sort Prop
  with shaped_many_mut := Minimality for shaped_many Sort Prop
  with shaped_pairs_mut := Minimality for shaped_pairs Sort Prop.
Combined Scheme shaped_mutind from shaped_mut, shaped_all_mut, shaped_many_mut, shaped_pairs_mut.
