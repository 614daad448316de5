(** C67: a client has no membership operations but those that it made as asked and those that it received. *)
From Coq Require Import Arith Lia.
From stdpp Require Import base list gmap relations.
From Verif Require Import ResModel KeysModel TreeModel OpsModel CgkaModel.
From Verif Require Import AccessModel GroupModel CgkaSpec GroupSpec GroupPropsProofs PrekeyModel HiveModel HiveSpec SyncModel DocModel DocSpec.
From Verif Require Import ArchiveModel ArchiveSpec TransactModel ArriveModel SettleSpec SettleProofs SettleProps QueryModel RememberModel RememberSpec RememberProofs RestoreProps SourceSpec SourceProofs.

Section props.
Context (order : gset nat -> list nat) (horder : gset digest -> list digest) (rorder : gset (member_id * nat) -> list (member_id * nat)).

(** In every state of a client, whatever the result of the call: adding a member makes at most the delegation that was asked for. *)
Theorem C67_add pick h i who can content s hs h' r o : hive_add_member order horder rorder pick h i who can content s hs = (h', r) ->
  has_op h' o -> has_op h o \/ asked_adding h who can s o.
Proof. apply add_from. Qed.
(** Revoking a member makes only revocations of delegations to the member, and delegations that repeat those to others. *)
Theorem C67_revoke h i target retain content sigs hs h' r o : hive_revoke_member order horder rorder h i target retain content sigs hs = (h', r) ->
  has_op h' o -> has_op h o \/ asked_revoking h i target retain o.
Proof. apply revoke_from. Qed.
(** Making a group or a document makes only the delegations to its first members. *)
Theorem C67_group h i parents content h' r o : hive_generate_group order h i parents content = (h', r) ->
  has_op h' o -> has_op h o \/ exists who s, (who, s) ∈ parents /\ o = MD (Dlg s i who Admin None [] content).
Proof. intros Q X. destruct (group_from order h i parents content h' r o Q X) as [Y|([who s] & Hx & ->)]; [auto|]. right. exists who, s. auto. Qed.
Theorem C67_doc pick h i parents content sk h0 hs hu rng h' r o : hive_generate_doc order horder rorder pick h i parents content sk h0 hs hu rng = (h', r) ->
  has_op h' o -> has_op h o \/ exists who s, (who, s) ∈ parents /\ o = MD (Dlg s i who Admin None [] content).
Proof. intros Q X. destruct (doc_from order horder rorder pick h i parents content sk h0 hs hu rng h' r o Q X) as [Y|([who s] & Hx & ->)]; [auto|]. right. exists who, s. auto. Qed.
(** A received event adds at most the operation that it says, if its signature verifies. *)
Theorem C67_receive doc_content h x h' r o : receive_event order doc_content do_doc do_ok (doc_receive horder rorder) h x = (h', r) ->
  has_op h' o -> has_op h o \/ says h x o.
Proof. apply receive_from. Qed.
(** No other call changes which membership operations there are, or any group or document. *)
Theorem C67_other h h' o : other_call horder rorder h h' -> (has_op h' o <-> has_op h o) /\ h_groups h' = h_groups h /\ h_docs h' = h_docs h.
Proof. apply other_from. Qed.

Context (pick : client -> ident -> ident -> share_key) (doc_content : nat -> ident -> bool) (P : mop -> Prop).
Context (O : some_order order) (Pr : proper P).
Notation mixed := (mixed order horder rorder pick doc_content P).
Notation acquainted := (acquainted order horder rorder pick doc_content P).
Notation move := (move order horder rorder pick doc_content P).

Lemma remembers_known h h' i : remembers h h' -> known_agent h i = true -> known_agent h' i = true.
Proof.
  intros R. unfold known_agent. pose proof (rm_me _ _ R) as E. unfold me in E. rewrite E, !orb_true_iff, !bool_decide_eq_true. pose proof (rm_docs _ _ R i). pose proof (rm_groups _ _ R i). pose proof (rm_people _ _ R i). tauto.
Qed.
Definition delegates_known (h : client) : Prop := forall d, has_op h (MD d) -> known_agent h (d_delegate d) = true.
Lemma known_step h h' : mixed h -> move h h' -> delegates_known h -> (forall d, has_op h' (MD d) -> has_op h (MD d) \/ known_agent h (d_delegate d) = true) -> mixed h' /\ delegates_known h'.
Proof.
  intros M V K N. destruct (move_rem order horder rorder pick doc_content P O Pr h h' M V) as [R M']. split; [exact M'|]. intros d X. apply (remembers_known h h' _ R). destruct (N d X) as [Y|Y]; [exact (K d Y)|exact Y].
Qed.
Lemma acquainted_known h : acquainted h -> mixed h /\ delegates_known h.
Proof.
  induction 1 as [h E1 E2 E3 E4|h i ps ct h' r A [M K] N Np Ne ND Pp Q|h i ps ct sk h0 hs hu rng h' r A [M K] N Np Ne ND Pp Q|h i who can ct s hs h' r A [M K] W Pm Q|h i t rt ct sigs hs h' r A [M K] Pm Q
    |h x h' r A [M K] Pm Q|h h' A [M K] C].
  - split; [apply mx_start; assumption|]. intros d X. cbn in X. rewrite E3, lookup_empty in X. discriminate.
  - apply (known_step h h' M); [eapply mv_group; eauto; intros x Hx; apply Pp, Hx|exact K|]. intros d X. destruct (C67_group _ _ _ _ _ _ _ Q X) as [Y|(who & s & Hx & E)]; [auto|]. injection E as ->. right. apply (Pp _ Hx).
  - apply (known_step h h' M); [eapply mv_doc; eauto; intros x Hx; apply Pp, Hx|exact K|]. intros d X. destruct (C67_doc _ _ _ _ _ _ _ _ _ _ _ _ _ Q X) as [Y|(who & s & Hx & E)]; [auto|]. injection E as ->. right. apply (Pp _ Hx).
  - apply (known_step h h' M); [eapply mv_add; eauto|exact K|]. intros d X. destruct (C67_add _ _ _ _ _ _ _ _ _ _ _ Q X) as [Y|(d' & E & _ & _ & Ew & _)]; [auto|]. injection E as ->. right. rewrite Ew. exact W.
  - apply (known_step h h' M); [eapply mv_revoke; eauto|exact K|]. intros d X. destruct (C67_revoke _ _ _ _ _ _ _ _ _ _ Q X) as [Y|(g & G & [(y & l & E & _)|(d' & d0 & j & l & E & _ & _ & L & Hl & Ew & _)])]; [auto|discriminate|].
    injection E as ->. right. rewrite Ew. apply K. assert (Z : holds g d0).
    { pose proof (mixed_settled order horder rorder pick doc_content P O Pr h M) as S. destruct (group_sound order P Pr h i g S G) as (ops & _ & Hi & [U D] & _). exists l.
      destruct (members_wf order O ops g Hi U D j l L) as [_ Dj]. rewrite (Dj d0 Hl). auto. }
    exact (proj1 (C62_authority order horder rorder pick doc_content P O Pr h i g d0 M G Z)).
  - apply (known_step h h' M); [eapply mv_receive; eauto|exact K|]. intros d X. destruct (C67_receive doc_content _ _ _ _ _ Q X) as [Y|Y]; [auto|]. destruct x as [k|c|y|y]; cbn in Y; try contradiction. destruct Y as (_ & _ & _ & -> & _ & Y & _). auto.
  - apply (known_step h h' M); [destruct C; [eapply mv_update|eapply mv_encrypt|eapply mv_decrypt|eapply mv_prekey|eapply mv_card|eapply mv_import|eapply mv_queue]; eassumption|exact K|].
    intros d X. left. apply (proj1 (C67_other h h' (MD d) C)), X.
Qed.
(** If the calls name only agents that the client knows, it always knows everybody it has a delegation to; *)
Theorem C67_acquainted h d : acquainted h -> has_op h (MD d) -> known_agent h (d_delegate d) = true.
Proof. intros A. apply (acquainted_known h A). Qed.
(** so it can always be stored and brought back, if its operations can be ordered. *)
Theorem C67_restored h : acquainted h -> orderable (has_op h) ->
  exists a b, into_archive order h = Some a /\ try_from_archive order a = Datatypes.inr b /\ alike h b.
Proof.
  intros A Q. destruct (acquainted_known h A) as [M K]. destruct (C65_restored order horder rorder pick doc_content P O Pr h M Q K) as (a & b & E & B & L & _). exists a, b. auto.
Qed.
End props.
Print Assumptions C67_add.
Print Assumptions C67_revoke.
Print Assumptions C67_group.
Print Assumptions C67_doc.
Print Assumptions C67_receive.
Print Assumptions C67_other.
Print Assumptions C67_acquainted.
Print Assumptions C67_restored.
