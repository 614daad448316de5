(** What it means that a number is the number of things of some sort. *)
From stdpp Require Import base list gmap.
From Verif Require Import ResModel KeysModel TreeModel OpsModel CgkaModel.
From Verif Require Import AccessModel GroupModel PrekeyModel HiveModel DocModel TallyModel.

(** There are exactly [n] things with property [P]. *)
Definition counts {A} (n : nat) (P : A -> Prop) : Prop := exists l, NoDup l /\ (forall x, x ∈ l <-> P x) /\ length l = n.
(** Person [q.1] has published the prekey operation [q.2], an expansion or a rotation. *)
Definition published (h : client) (adds : bool) (q : ident * keyop) : Prop :=
  exists x, ks_indies (h_keys h) !! q.1 = Some x /\ q.2 ∈ in_ops x /\ (adds = true <-> exists k, ko_pay q.2 = AddKey k).
(** The key of document [q.1] has an operation with digest [q.2]. *)
Definition key_op (h : client) (q : ident * digest) : Prop :=
  is_Some (h_docs h !! q.1) /\ exists c, cgka_of h q.1 = Some c /\ is_Some (g_ops (c_graph c) !! q.2).
(** The event is of kind [k]; individual [a] signed it. *)
Definition of_kind (k : kind) (x : sevent dop) : Prop :=
  match k with
  | KExpanded => exists o p, x = EKey o /\ ko_pay o = AddKey p
  | KRotated => exists o p q, x = EKey o /\ ko_pay o = RotateKey p q
  | KKey => exists o, x = ECgka o
  | KDlg => exists d, x = EDlg d
  | KRev => exists r, x = ERev r
  end.
Definition signed_as (a : ident) (x : sevent dop) : Prop :=
  (exists o, x = EKey o /\ ko_issuer o = a) \/ (exists o, x = ECgka o /\ do_issuer o = a) \/ (exists d, x = EDlg d /\ sd_issuer d = a) \/ (exists r, x = ERev r /\ sr_issuer r = a).
(** At place [n] of the queue there is an event of kind [k]; in the second case one that the active agent signed. *)
Definition waits (h : client) (k : kind) (n : nat) : Prop := exists x, h_pending h !! n = Some x /\ of_kind k x.
Definition waits_own (h : client) (k : kind) (n : nat) : Prop := exists x, h_pending h !! n = Some x /\ of_kind k x /\ signed_as (me h) x.
(** The pairs of numbers about pending events. *)
Definition waiting (t : tally) (k : kind) : nat * nat :=
  match k with KExpanded => ta_wait_expanded t | KRotated => ta_wait_rotated t | KKey => ta_wait_key t | KDlg => ta_wait_dlg t | KRev => ta_wait_rev t end.
