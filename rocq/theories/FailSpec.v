(** Specification vocabulary for calls that fail: what may have changed. *)
From stdpp Require Import base list gmap.
From Verif Require Import ResModel KeysModel TreeModel OpsModel CgkaModel AccessModel GroupModel PrekeyModel HiveModel DocModel.

(** A real error of a call: [DLoop] stands for memberships in a circle, which are not modelled, and [DFuel] for
    supplies of signatures, digests or random numbers that ran out, which those of the code do not. *)
Definition real (e : derror) : Prop := e <> DLoop /\ e <> DFuel.
(** The operations of the group key of document [j] that are known. *)
Definition key_history (h : client) (j : ident) : option graph := c_graph <$> cgka_of h j.
(** Everything is as before, except that the key of document [i] may have been worked on: its history is the same. *)
Definition same_but_work (h h' : client) (i : ident) : Prop :=
  h_keys h' = h_keys h /\ h_groups h' = h_groups h /\ h_docs h' = h_docs h /\ h_dlgs h' = h_dlgs h /\ h_revs h' = h_revs h /\
  h_pending h' = h_pending h /\ cs_pairs (h_cg h') = cs_pairs (h_cg h) /\
  (forall j, j <> i -> cgka_of h' j = cgka_of h j) /\ key_history h' i = key_history h i.
(** The client has somebody, a group or a document with this identifier on record. *)
Definition has_record (h : client) (i : ident) : Prop :=
  i = ks_active (h_keys h) \/ is_Some (ks_docs (h_keys h) !! i) \/ is_Some (ks_groups (h_keys h) !! i) \/ is_Some (ks_indies (h_keys h) !! i).
