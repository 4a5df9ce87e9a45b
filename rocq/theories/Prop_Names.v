(** Property C80: the Go names of rules. *)
From Verif Require Import Base Scanner Syntax Resolve Compile Codegen Types TypesSpec TypesProofs NameSpec NameProofs WbnfTypes.

(** C80: in a name, a capital directly after a capital becomes small and all else stays, in place ... *)
Theorem C80_drop_caps : forall s, ascii_only (bs s) -> eased (bs s) (bs (drop_caps s)).
Proof. exact drop_eases. Qed.
Print Assumptions C80_drop_caps.
(** ... so that no two capitals are left together, in whatever name, ... *)
Theorem C80_no_runs : forall s i, ~ crowded (bs (drop_caps s)) i.
Proof. exact drop_uncrowded. Qed.
Print Assumptions C80_no_runs.
(** ... and a name without such capitals is kept. *)
Theorem C80_kept : forall s, ascii_only (bs s) -> (forall i, ~ crowded (bs s) i) -> drop_caps s = s.
Proof.
  intros s A N. rewrite <- (sb_bs (drop_caps s)), (eased_same _ _ N (drop_eases _ A)). apply sb_bs.
Qed.
Print Assumptions C80_kept.
(** A name that is not ASCII is spoilt, as its bytes are taken for characters. *)
Theorem C80_kept_refuted : exists s, (forall i, ~ crowded (bs s) i) /\ drop_caps s <> s.
Proof.
  exists (sb (map ascii_of_nat [195; 169])). split; [|vm_compute; discriminate]. intros i (j & a & b & _ & E & C & _).
  rewrite bs_sb in E. destruct j as [|[|[|]]]; vm_compute in E; try discriminate; injection E as <-; apply is_cap_capital in C; vm_compute in C; discriminate.
Qed.
Print Assumptions C80_kept_refuted.
(** The name of the type of a type is its own, and its rule has the name of the rule. *)
Theorem C80_type_names : forall camel s, go_type_name camel (go_type_name camel s) = go_type_name camel s /\
  go_name camel (go_type_name camel s) = go_name camel s.
Proof. intros camel s. split; [apply type_name_twice|]. unfold go_name at 1, go_type_name. now rewrite node_suffix_node. Qed.
Print Assumptions C80_type_names.
(** Expected is that a name for Go can be exported, that is starts with a capital.  Instead names that end with "Node" lose this
    end only, which gives types that are not exported, or are those of other rules. *)
Theorem C80_exported_refuted : go_type_name to_camel "exprNode" = "exprNode"%string /\ go_type_name to_camel "ExprNode" = go_type_name to_camel "expr".
Proof. split; vm_compute; reflexivity. Qed.
Print Assumptions C80_exported_refuted.

Example C80_example : drop_caps "parseHTTPRequestID" = "parseHttprequestId"%string /\ crowded (bs "INT") 2 /\ ascii_only (bs "parseHTTPRequestID") /\
  go_type_name to_camel "INT" = "IntNode"%string /\ drop_caps "left_Arm" = "left_Arm"%string.
Proof.
  split; [vm_compute; reflexivity|]. split; [exists 1, "N"%char, "T"%char; repeat split; try reflexivity; apply is_cap_capital; reflexivity|].
  split; [repeat (constructor; [vm_compute; lia|]); constructor|]. split; vm_compute; reflexivity.
Qed.
