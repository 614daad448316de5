(** Specification of storing a client and bringing it back. *)
From stdpp Require Import base list gmap relations.
From Verif Require Import AccessModel GroupModel CgkaSpec GroupSpec PrekeyModel HiveModel HiveSpec.

(** The client has everything that its operations and groups refer to. *)
Record intact {cg cop} (h : hive cg cop) : Prop := {
  (* Operations are filed under their digests, and digests identify them. *)
  in_dlgs : forall s d, h_dlgs h !! s = Some d -> d_sig d = s;
  in_revs : forall s r, h_revs h !! s = Some r -> r_sig r = s;
  in_genuine : genuine (has_op h);
  (* What an operation depends on is there, and so is everybody who was delegated to. *)
  in_parents : forall o p, has_op h o -> depends_on o p -> has_op h p;
  in_agents : forall d, has_op h (MD d) -> known_agent h (d_delegate d) = true;
  (* There is an order in which to replay all operations. *)
  in_order : orderable (has_op h);
  (* The heads and the delegations of the members are there; roots are by the key of the group. *)
  in_heads : forall i g o, has_group h i g -> is_head g o -> has_op h o;
  in_filed : forall i g, has_group h i g -> filed g;
  in_roots : forall i g d, has_group h i g -> is_head g (MD d) -> d_proof d = None -> d_issuer d = gr_id g;
  in_members : forall i g j l, has_group h i g -> gr_members g !! j = Some l -> l <> [] /\ forall d, d ∈ l -> has_op h (MD d)
}.

(** The client without the active revocations of its groups. *)
Definition forget_group (g : group) : group := Group (gr_id g) (gr_dheads g) (gr_rheads g) (gr_members g) ∅.
Definition forget {cg cop} (h : hive cg cop) : hive cg cop :=
  Hive (h_keys h) (forget_group <$> h_groups h) (forget_group <$> h_docs h) (h_dlgs h) (h_revs h) (h_cg h) (h_pending h).
(** The same client, up to active revocations. *)
Definition alike {cg cop} (h h' : hive cg cop) : Prop := forget h = forget h'.
