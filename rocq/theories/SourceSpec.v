(** Specification: where the membership operations that a client has come from. *)
From stdpp Require Import base list gmap relations.
From Verif Require Import ResModel KeysModel TreeModel OpsModel CgkaModel.
From Verif Require Import AccessModel GroupModel GroupSpec PrekeyModel HiveModel HiveSpec SyncModel DocModel TransactModel ArriveModel SettleSpec.

(** The operation is what the received event says, whose signature verifies: by the same issuer, for the same delegate with the same
    access, or against the same delegation, and with the proof that it names. *)
Definition says (h : client) (x : sevent dop) (o : mop) : Prop :=
  match x, o with
  | EDlg y, MD d => sd_ok y = true /\ d_sig d = sd_sig y /\ d_issuer d = sd_issuer y /\ d_delegate d = sd_delegate y /\ d_can d = sd_can y /\ known_agent h (sd_delegate y) = true /\
      match sd_proof y with None => d_proof d = None | Some s => d_proof d = h_dlgs h !! s /\ is_Some (h_dlgs h !! s) end
  | ERev y, MR r => sr_ok y = true /\ r_sig r = sr_sig y /\ r_issuer r = sr_issuer y /\ h_dlgs h !! sr_revoke y = Some (r_revoke r) /\
      match sr_proof y with None => r_proof r = None | Some s => r_proof r = h_dlgs h !! s /\ is_Some (h_dlgs h !! s) end
  | _, _ => False
  end.
(** The delegation is by the active agent, as the call asks. *)
Definition asked_adding (h : client) (who : ident) (can : access) (s : sig) (o : mop) : Prop :=
  exists d, o = MD d /\ d_sig d = s /\ d_issuer d = me h /\ d_delegate d = who /\ d_can d = can.
(** The revocation is by the active agent and of a delegation to the member to remove; the delegation, made only if asked to retain
    what the member had granted, is by the active agent and repeats one to somebody else. *)
Definition asked_revoking (h : client) (i target : ident) (retain : bool) (o : mop) : Prop :=
  exists g, has_group h i g /\
    ((exists r l, o = MR r /\ r_issuer r = me h /\ gr_members g !! target = Some l /\ r_revoke r ∈ l) \/
     (exists d d0 j l, o = MD d /\ retain = true /\ d_issuer d = me h /\ gr_members g !! j = Some l /\ d0 ∈ l /\ d_delegate d = d_delegate d0 /\ d_can d = d_can d0 /\ d_delegate d <> target)).
(** A call of the active agent that changes no group and no document. *)
Inductive other_call (horder : gset digest -> list digest) (rorder : gset (member_id * nat) -> list (member_id * nat)) : client -> client -> Prop :=
| oc_update h j sk x rng h' r : hive_update horder rorder h j sk x rng = (h', r) -> other_call horder rorder h h'
| oc_encrypt h j ref content preds sk x rng h' r : hive_encrypt horder rorder h j ref content preds sk x rng = (h', r) -> other_call horder rorder h h'
| oc_decrypt h j e h' r : hive_decrypt rorder h j e = (h', r) -> other_call horder rorder h h'
| oc_prekey h make sk h' o : make_prekey h make sk = Some (h', o) -> other_call horder rorder h h'
| oc_card h o : other_call horder rorder h (put_keys h (receive_contact_card (h_keys h) o).1)
| oc_import h l : other_call horder rorder h (more_secrets h l)
| oc_queue h l : other_call horder rorder h (put_pending h l).

(** A client whose calls name agents that it knows: those it makes the first members of a group or document, and those it adds.
    Otherwise as in [mixed]. *)
Section acquainted.
Context (order : gset nat -> list nat) (horder : gset digest -> list digest) (rorder : gset (member_id * nat) -> list (member_id * nat)).
Context (pick : client -> ident -> ident -> share_key) (doc_content : nat -> ident -> bool) (P : mop -> Prop).
Inductive acquainted : client -> Prop :=
| aq_start h : h_groups h = ∅ -> h_docs h = ∅ -> h_dlgs h = ∅ -> h_revs h = ∅ -> acquainted h
| aq_group h i parents content h' r : acquainted h -> h_env h !! i = None -> i <> ks_public (h_keys h) -> parents <> [] -> NoDup parents.*2 ->
    (forall x, x ∈ parents -> P (MD (Dlg x.2 i x.1 Admin None [] content)) /\ known_agent h x.1 = true) ->
    hive_generate_group order h i parents content = (h', r) -> acquainted h'
| aq_doc h i parents content sk h0 hs hu rng h' r : acquainted h -> h_env h !! i = None -> i <> ks_public (h_keys h) -> parents <> [] -> NoDup parents.*2 ->
    (forall x, x ∈ parents -> P (MD (Dlg x.2 i x.1 Admin None [] content)) /\ known_agent h x.1 = true) ->
    hive_generate_doc order horder rorder (pick h) h i parents content sk h0 hs hu rng = (h', r) -> acquainted h'
| aq_add h i who can content s hs h' r : acquainted h -> known_agent h who = true -> (forall o, makes_adding order h i who can content s o -> P o) ->
    hive_add_member order horder rorder (pick h) h i who can content s hs = (h', r) -> acquainted h'
| aq_revoke h i target retain content sigs hs h' r : acquainted h -> (forall o, makes_revoking order h i target retain content sigs o -> P o) ->
    hive_revoke_member order horder rorder h i target retain content sigs hs = (h', r) -> acquainted h'
| aq_receive h x h' r : acquainted h ->
    (forall o, stands_for_op h x o -> P o /\ op_subject o <> ks_public (h_keys h) /\ ks_indies (h_keys h) !! op_subject o = None) ->
    receive_event order doc_content do_doc do_ok (doc_receive horder rorder) h x = (h', r) -> acquainted h'
| aq_other h h' : acquainted h -> other_call horder rorder h h' -> acquainted h'.
End acquainted.
