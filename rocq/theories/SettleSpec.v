(** Specification: clients that change groups and documents themselves and also receive the changes of others. *)
From stdpp Require Import base list gmap relations.
From Verif Require Import ResModel KeysModel TreeModel OpsModel CgkaModel.
From Verif Require Import KeysModel AccessModel GroupModel GroupSpec PrekeyModel HiveModel HiveSpec DocModel DocSpec TransactModel ArriveModel.

(** Membership operations that can be told apart by their signatures, no two of which say the same about the same group or
    document, and that refer to operations of the same group or document. *)
Definition proper (P : mop -> Prop) : Prop := well_signed P /\ forall o p, P o -> p ∈ parents o -> op_subject p = op_subject o.

Section settle.
Context (order : gset nat -> list nat) (horder : gset digest -> list digest) (rorder : gset (member_id * nat) -> list (member_id * nat)).
Context (pick : client -> ident -> ident -> share_key) (doc_content : nat -> ident -> bool) (P : mop -> Prop).

(** The membership operations that a call makes, or that an event stands for. *)
Definition makes_adding (h : client) (i who : ident) (can : access) (content : nat) (s : sig) (o : mop) : Prop :=
  exists g g' d, has_group h i g /\ add_member order (h_env h) g who can (me h) content s = GOk (g', d) /\ o = MD d.
Definition makes_revoking (h : client) (i target : ident) (retain : bool) (content : nat) (sigs : list sig) (o : mop) : Prop :=
  exists g g' rs ds, has_group h i g /\ revoke_member order (h_env h) g target retain (me h) content sigs = GOk (g', rs, ds) /\ (o ∈ map MR rs \/ o ∈ map MD ds).
Definition stands_for_op (h : client) (x : sevent dop) (o : mop) : Prop :=
  match x with
  | EDlg y => exists d, resolve_dlg h y = Datatypes.inr d /\ o = MD d
  | ERev y => exists r, resolve_rev h y = Datatypes.inr r /\ o = MR r
  | _ => False
  end.

(** Any client, whatever calls it makes, with whatever result, and whatever it receives, as long as the membership operations
    are among [P], new groups and documents have identifiers of their own, and nobody known as an individual turns out to be
    a group. *)
Inductive mixed : client -> Prop :=
| mx_start h : h_groups h = ∅ -> h_docs h = ∅ -> h_dlgs h = ∅ -> h_revs h = ∅ -> mixed h
| mx_group h i parents content h' r : mixed h -> h_env h !! i = None -> i <> ks_public (h_keys h) -> parents <> [] -> NoDup parents.*2 ->
    (forall x, x ∈ parents -> P (MD (Dlg x.2 i x.1 Admin None [] content))) ->
    hive_generate_group order h i parents content = (h', r) -> mixed h'
| mx_doc h i parents content sk h0 hs hu rng h' r : mixed h -> h_env h !! i = None -> i <> ks_public (h_keys h) -> parents <> [] -> NoDup parents.*2 ->
    (forall x, x ∈ parents -> P (MD (Dlg x.2 i x.1 Admin None [] content))) ->
    hive_generate_doc order horder rorder (pick h) h i parents content sk h0 hs hu rng = (h', r) -> mixed h'
| mx_add h i who can content s hs h' r : mixed h -> (forall o, makes_adding h i who can content s o -> P o) ->
    hive_add_member order horder rorder (pick h) h i who can content s hs = (h', r) -> mixed h'
| mx_revoke h i target retain content sigs hs h' r : mixed h -> (forall o, makes_revoking h i target retain content sigs o -> P o) ->
    hive_revoke_member order horder rorder h i target retain content sigs hs = (h', r) -> mixed h'
| mx_update h j sk x rng h' r : mixed h -> hive_update horder rorder h j sk x rng = (h', r) -> mixed h'
| mx_encrypt h j ref content preds sk x rng h' r : mixed h -> hive_encrypt horder rorder h j ref content preds sk x rng = (h', r) -> mixed h'
| mx_decrypt h j e h' r : mixed h -> hive_decrypt rorder h j e = (h', r) -> mixed h'
| mx_receive h x h' r : mixed h ->
    (forall o, stands_for_op h x o -> P o /\ op_subject o <> ks_public (h_keys h) /\ ks_indies (h_keys h) !! op_subject o = None) ->
    receive_event order doc_content do_doc do_ok (doc_receive horder rorder) h x = (h', r) -> mixed h'
| mx_queue h l : mixed h -> mixed (put_pending h l)
| mx_prekey h make sk h' o : mixed h -> make_prekey h make sk = Some (h', o) -> mixed h'
| mx_card h o : mixed h -> mixed (put_keys h (receive_contact_card (h_keys h) o).1)
| mx_import h l : mixed h -> mixed (more_secrets h l).

(** The group or document of the client is what its operations make it, all of which the client has, and it has no other
    operations of it. *)
Definition made_of_ops (h : client) (i : ident) (g : group) : Prop :=
  gr_id g = i /\ exists ops, history order ops g /\ forall o, o ∈ ops <-> has_op h o /\ op_subject o = i.
End settle.
