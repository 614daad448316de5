(** Specification of what a client offers to another agent. *)
From stdpp Require Import base list gmap relations.
From Verif Require Import AccessModel GroupModel GroupSpec PrekeyModel HiveModel HiveSpec.

Section offered.
Context {cg cop : Type} (h : hive cg cop).
(** The membership operations for agent [a]: the newest operations of the groups and documents that
    [a] belongs to, the revocations of [a]'s own delegations, everything these depend on, and the
    newest delegations of every group that one of these delegations is for. *)
Inductive offered (a : ident) : mop -> Prop :=
| off_head i g o : has_group h i g -> belongs (h_env h) i a -> is_head g o -> offered a o
| off_revoked r : has_op h (MR r) -> d_delegate (r_revoke r) = a -> offered a (MR r)
| off_parent o p : offered a o -> depends_on o p -> offered a p
| off_team d g x : offered a (MD d) -> h_groups h !! d_delegate d = Some g -> is_head g (MD x) -> offered a (MD x).
(** The agents whose prekey operations are for [a]: the client's own, [a]'s, those of the groups and
    documents [a] belongs to and of everybody in them. *)
Definition offered_keys (a i : ident) : Prop :=
  i = ks_active (h_keys h) \/ i = a \/
  exists j g, has_group h j g /\ belongs (h_env h) j a /\ (i = j \/ belongs (h_env h) j i).
(** The documents that [a] belongs to. *)
Definition offered_docs (a i : ident) : Prop := is_Some (h_docs h !! i) /\ belongs (h_env h) i a.
End offered.
