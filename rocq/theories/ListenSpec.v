(** Specification of what the listener of a client hears. *)
From stdpp Require Import base list gmap.
From Verif Require Import ResModel KeysModel TreeModel OpsModel CgkaModel.
From Verif Require Import AccessModel GroupModel PrekeyModel HiveModel HiveSpec SyncModel ArchiveModel ArchiveSpec DocModel TransactModel TransactSpec.

(** The client has this operation of the key of document [j]. *)
Definition has_key_op (h : client) (j : ident) (o : signed_op) : Prop :=
  exists c, cgka_of h j = Some c /\ g_ops (c_graph c) !! so_hash o = Some o.
(** The client has this prekey operation of somebody. *)
Definition has_prekey (h : client) (o : keyop) : Prop :=
  exists i x, ks_indies (h_keys h) !! i = Some x /\ o ∈ in_ops x.
(** What an event tells is in the client. *)
Definition knows (h : client) (x : sevent dop) : Prop :=
  match x with
  | EDlg _ | ERev _ => exists o, has_op h o /\ static_of o = x
  | ECgka o => has_key_op h (do_doc o) (do_op o)
  | EKey o => has_prekey h o
  end.
(** The membership operations that a membership event refers to. *)
Definition needs (x : sevent dop) : list sig :=
  match x with
  | EDlg d => option_list (sd_proof d) ++ sd_after d
  | ERev r => sr_revoke r :: option_list (sr_proof r)
  | _ => []
  end.

(** A client [h] became [h'], and its listener was told [log].  Nothing is missing: *)
Record all_told (h h' : client) (log : list (sevent dop)) : Prop := {
  at_members : forall o, has_op h' o -> has_op h o \/ static_of o ∈ log;
  at_keys : forall j o, has_key_op h' j o -> has_key_op h j o \/ ECgka (DOp j (me h) true o) ∈ log;
  at_prekeys : forall o, has_prekey h' o -> has_prekey h o \/ EKey o ∈ log
}.
(** Nothing is made up: *)
Definition all_true (h' : client) (log : list (sevent dop)) : Prop := forall x, x ∈ log -> knows h' x.
(** And whatever an event refers to was there before or comes earlier. *)
Definition told_in_order (h : client) (log : list (sevent dop)) : Prop := forall l1 x l2, log = l1 ++ x :: l2 ->
  (forall s, s ∈ needs x -> (exists o, has_op h o /\ op_sig o = s) \/ exists y, y ∈ l1 /\ ev_sig y = Some s) /\
  (forall o p, x = ECgka o -> p ∈ op_preds (so_op (do_op o)) ->
     (exists q, has_key_op h (do_doc o) q /\ so_hash q = p) \/ exists y, ECgka y ∈ l1 /\ do_doc y = do_doc o /\ so_hash (do_op y) = p).

(** The digests that a call draws for new operations of the key of document [j]. *)
Definition digests_of (j : ident) (c : call) : list digest :=
  match c with
  | TDoc i _ _ _ h0 hs hu _ => if i =? j then h0 :: hs ++ [hu] else []
  | TAdd _ _ _ _ _ hs | TRevoke _ _ _ _ _ hs => hs j
  | TUpdate i _ x _ | TEncrypt i _ _ _ _ x _ => if i =? j then [x] else []
  | _ => []
  end.
(** They are drawn once and are new to the client, and there are no keys yet of the documents that are made. *)
Definition new_digests (h : client) (cs : list call) : Prop :=
  (forall i, i ∈ concat (map named cs) -> cgka_of h i = None) /\
  forall j, NoDup (concat (map (digests_of j) cs)) /\ forall x o, x ∈ concat (map (digests_of j) cs) -> has_key_op h j o -> so_hash o <> x.
(** What is newest in a key is known. *)
Definition keys_sound (h : client) : Prop := forall j c, cgka_of h j = Some c ->
  (forall x o, g_ops (c_graph c) !! x = Some o -> so_hash o = x) /\ (forall x, x ∈ g_heads (c_graph c) -> is_Some (g_ops (c_graph c) !! x)).

(** keyhive.rs 482-552: the operations of keys are told at the end of [add_member] (lines 545-549), which an
    error on the way (the question marks of lines 488-496 and 530) skips. *)
Definition add_tells (r : client * dres (dlg * list dop)) : list dop := match r.2 with DOk (_, ops) => ops | DErr _ => [] end.
