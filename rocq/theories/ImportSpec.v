(** What importing a file means, independently of the loader. *)
From Verif Require Import Base Scanner Syntax Engine Resolve Compile Parse Ast WbnfAst Walker WalkerSpec Build Front.

(** The statements of a grammar (always a list, even of one). *)
Definition statements (n : anode) : list anode :=
  match n with ABranch b => match lookup "stmt"%string b with Some (Many l) => l | _ => [] end | _ => [] end.

(** The import nodes of a tree, in the order of a depth-first walk (those of nested grammars included). *)
Definition import_events (evs : list event) : list anode :=
  flat_map (fun e => match e with Enter KPragmaImport m => [m] | _ => [] end) evs.
Definition import_nodes (n : anode) (ms : list anode) : Prop :=
  exists evs, tour (fun _ _ => false) KGrammar n evs /\ ms = import_events evs.

Section Imports.
  Variables (w : world) (wbnf : parsers) (fuel : nat).

  (** The text of the file [from] is this tree. *)
  Definition reads (from : string) (txt : bytes) (n : anode) : Prop := parse_text w wbnf fuel from txt = COk (inr n).

  (** The file that the import [m] in the file [from] names: the parts of its path joined, and resolved. *)
  Definition names_file (from : string) (m : anode) (p : string) : Prop :=
    exists path more toks, labelled "path" m = path :: more /\
      Forall2 (fun leaf tok => exists b, node_text leaf = COk b /\ tok = sb b) (labelled "" path) toks /\
      p = w_clean w (match w_resolve w with Some f => f from (w_join w toks) | None => w_join w toks end).
  Definition imports (from : string) (n : anode) (ps : list string) : Prop :=
    exists ms, import_nodes n ms /\ Forall2 (names_file from) ms ps.

  (** The statements of a text are its own, followed by those of the files it imports; [good] is what is asked of the trees. *)
  Inductive contents (good : anode -> Prop) : string -> bytes -> list anode -> Prop :=
  | contents_of from txt n ps ss : reads from txt n -> good n -> imports from n ps -> contents_all good ps ss ->
      contents good from txt (statements n ++ ss)
  with contents_all (good : anode -> Prop) : list string -> list anode -> Prop :=
  | contents_nil : contents_all good [] []
  | contents_cons p txt ps ss ss' : w_read w p = Some txt -> contents good p txt ss -> contents_all good ps ss' ->
      contents_all good (p :: ps) (ss ++ ss').

  (** The file [p] imports the file [q]. *)
  Definition opens (p q : string) : Prop :=
    exists txt n ps, w_read w p = Some txt /\ reads p txt n /\ imports p n ps /\ In q ps.
  (** The text imports the file, by way of other files or not. *)
  Inductive needs (txt : bytes) : string -> Prop :=
  | needs_now n ps p : reads "" txt n -> imports "" n ps -> In p ps -> needs txt p
  | needs_then p q : needs txt p -> opens p q -> needs txt q.
  (** A chain of imports from a file to another. *)
  Inductive route : string -> string -> Prop :=
  | route_one p q : opens p q -> route p q
  | route_more p q r : opens p q -> route q r -> route p r.

  (** Trees with a list of statements that the fuel of the walk is enough for. *)
  Definition sound (n : anode) : Prop := height n < fuel /\ exists b l, n = ABranch b /\ lookup "stmt" b = Some (Many l).
End Imports.
