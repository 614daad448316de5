(** Specification: who has access to what. *)
From stdpp Require Import base list gmap relations.
From Verif Require Import AccessModel GroupModel GroupSpec PrekeyModel HiveModel HiveSpec DocModel.

(** A delegation to [y] is in force in the group or document [x]. *)
Definition member_of (h : client) (x y : ident) : Prop := exists g d, has_group h x g /\ holds g d /\ d_delegate d = y.
(** [a] is a member of [i], or of a group or document that has access to it. *)
Definition has_access (h : client) (i a : ident) : Prop := tc (member_of h) i a.
(** [a] is neither a group nor a document that the client has. *)
Definition individual_to (h : client) (a : ident) : Prop := forall g, ~ has_group h a g.
(** [r] is in force in the group or document [i]. *)
Definition revoking (h : client) (i : ident) (r : rev) : Prop := exists g s, has_group h i g /\ gr_active g !! s = Some r.
