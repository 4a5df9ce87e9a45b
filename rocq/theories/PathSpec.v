(** Where a path leads, read letter by letter (without links). *)
From Verif Require Import Base.
Local Open Scope string_scope.
Local Open Scope list_scope.

(** A place is the list of the names on the way to it from the root. *)
Definition enter (here : list string) (word : string) : list string :=
  if string_dec word "" then here else if string_dec word "." then here
  else if string_dec word ".." then removelast here else here ++ [word].
(** The place that is reached from [here] by the rest of a path; [word] is what has been read of a name. *)
Fixpoint travel (here : list string) (word path : string) : list string :=
  match path with
  | EmptyString => enter here word
  | String c path => if ascii_dec c "/" then travel (enter here word) "" path else travel here (word ++ String c "") path
  end.
(** The path below a place, and the path of a process: a leading slash stands for the root. *)
Definition below (here : list string) (path : string) : list string := travel here "" path.
Definition place (cwd : list string) (path : string) : list string :=
  below (match path with String "/" _ => [] | _ => cwd end) path.

Definition no_slash (s : string) : Prop := ~ In "/"%char (bs s).
(** Proper names: not the names of "here" and "up". *)
Definition named (s : string) : Prop := no_slash s /\ s <> "" /\ s <> "." /\ s <> "..".

(** The path of a file as its directory, with the slash if there is one, and its name. *)
Definition splits (path dir name : string) : Prop :=
  path = (dir ++ name)%string /\ no_slash name /\ (dir = "" \/ exists d, dir = (d ++ "/")%string).
