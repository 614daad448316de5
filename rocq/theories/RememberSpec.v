(** Specification: what a client must not forget, and what can come after a state of it. *)
From stdpp Require Import base list gmap relations.
From Verif Require Import ResModel KeysModel TreeModel OpsModel CgkaModel.
From Verif Require Import AccessModel GroupModel CgkaSpec GroupSpec PrekeyModel HiveModel HiveSpec SyncModel DocModel TransactModel ArriveModel SettleSpec.

(** Everything that [h] has is still there in [h']. *)
Record remembers (h h' : client) : Prop := {
  rm_ops : forall o, has_op h o -> has_op h' o;
  rm_groups : forall i, is_Some (h_groups h !! i) -> is_Some (h_groups h' !! i);
  rm_docs : forall i, is_Some (h_docs h !! i) -> is_Some (h_docs h' !! i);
  rm_people : forall i, is_Some (ks_indies (h_keys h) !! i) -> is_Some (ks_indies (h_keys h') !! i);
  rm_secrets : forall k, is_Some (cs_pairs (h_cg h) !! k) -> is_Some (cs_pairs (h_cg h') !! k);
  rm_keys : forall i, is_Some (cgka_of h i) -> is_Some (cgka_of h' i);
  rm_me : me h' = me h
}.

Section remember.
Context (order : gset nat -> list nat) (horder : gset digest -> list digest) (rorder : gset (member_id * nat) -> list (member_id * nat)).
Context (pick : client -> ident -> ident -> share_key) (doc_content : nat -> ident -> bool) (P : mop -> Prop).

(** One call with any result, or one received event, under the conditions of [mixed]. *)
Inductive move : client -> client -> Prop :=
| mv_group h i parents content h' r : h_env h !! i = None -> i <> ks_public (h_keys h) -> parents <> [] -> NoDup parents.*2 ->
    (forall x, x ∈ parents -> P (MD (Dlg x.2 i x.1 Admin None [] content))) ->
    hive_generate_group order h i parents content = (h', r) -> move h h'
| mv_doc h i parents content sk h0 hs hu rng h' r : h_env h !! i = None -> i <> ks_public (h_keys h) -> parents <> [] -> NoDup parents.*2 ->
    (forall x, x ∈ parents -> P (MD (Dlg x.2 i x.1 Admin None [] content))) ->
    hive_generate_doc order horder rorder (pick h) h i parents content sk h0 hs hu rng = (h', r) -> move h h'
| mv_add h i who can content s hs h' r : (forall o, makes_adding order h i who can content s o -> P o) ->
    hive_add_member order horder rorder (pick h) h i who can content s hs = (h', r) -> move h h'
| mv_revoke h i target retain content sigs hs h' r : (forall o, makes_revoking order h i target retain content sigs o -> P o) ->
    hive_revoke_member order horder rorder h i target retain content sigs hs = (h', r) -> move h h'
| mv_update h j sk x rng h' r : hive_update horder rorder h j sk x rng = (h', r) -> move h h'
| mv_encrypt h j ref content preds sk x rng h' r : hive_encrypt horder rorder h j ref content preds sk x rng = (h', r) -> move h h'
| mv_decrypt h j e h' r : hive_decrypt rorder h j e = (h', r) -> move h h'
| mv_receive h x h' r :
    (forall o, stands_for_op h x o -> P o /\ op_subject o <> ks_public (h_keys h) /\ ks_indies (h_keys h) !! op_subject o = None) ->
    receive_event order doc_content do_doc do_ok (doc_receive horder rorder) h x = (h', r) -> move h h'
| mv_queue h l : move h (put_pending h l)
| mv_prekey h make sk h' o : make_prekey h make sk = Some (h', o) -> move h h'
| mv_card h o : move h (put_keys h (receive_contact_card (h_keys h) o).1)
| mv_import h l : move h (more_secrets h l).
(** Any number of them. *)
Definition later : client -> client -> Prop := rtc move.
End remember.
