(** Specification: two clients of which one does what the other does. *)
From stdpp Require Import base list gmap relations.
From Verif Require Import ResModel KeysModel TreeModel OpsModel CgkaModel.
From Verif Require Import AccessModel GroupModel PrekeyModel HiveModel SyncModel DocModel ArchiveSpec.

(** The choice of prekeys looks at nothing but the individuals and their prekeys. *)
Definition picks_by_keys (pick : client -> ident -> ident -> share_key) : Prop := forall h h' : client, h_keys h = h_keys h' -> pick h = pick h'.
(** A call that does the same on two clients that are the same up to active revocations: it returns the same, and they are the same again. *)
Definition same_on {A} (call : client -> client * A) : Prop :=
  forall h h', alike h h' -> let (h1, r) := call h in let (h1', r') := call h' in r = r' /\ alike h1 h1'.
