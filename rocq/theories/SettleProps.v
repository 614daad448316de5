(** C62: groups and documents of a client that makes changes and receives them. *)
From stdpp Require Import base list gmap relations.
From Verif Require Import ResModel KeysModel TreeModel OpsModel CgkaModel.
From Verif Require Import AccessModel GroupModel CgkaSpec GroupSpec GroupHistory GroupPropsProofs GroupProps PrekeyModel HiveModel HiveSpec DocModel DocSpec TransactModel ArriveModel SettleSpec SettleProofs.

Section props.
Context (order : gset nat -> list nat) (horder : gset digest -> list digest) (rorder : gset (member_id * nat) -> list (member_id * nat)).
Context (pick : client -> ident -> ident -> share_key) (doc_content : nat -> ident -> bool) (P : mop -> Prop).
Context (O : some_order order) (Pr : proper P).
Notation mixed := (mixed order horder rorder pick doc_content P).
(** The operations that the client has about [i]. *)
Notation about h i := (fun o => has_op h o /\ op_subject o = i).

(** Whatever a client does and receives, successfully or not: each group and document it has is what the operations of
    it that the client has make it, no operation is missing from it, and the client has an operation only of
    groups and documents that it has. *)
Theorem C62_groups h : mixed h ->
  (forall i g, has_group h i g -> made_of_ops order h i g) /\ (forall o, has_op h o -> exists g, has_group h (op_subject o) g).
Proof. intros M. pose proof (mixed_settled order horder rorder pick doc_content P O Pr h M) as S. split; [apply (se_group _ _ _ S)|apply (se_known _ _ _ S)]. Qed.
(** It is therefore one of the clients of which C37, C46, C56 and C58 speak. *)
Theorem C62_tidy h : mixed h -> tidy order P h.
Proof. intros M. exact (settled_tidy order P Pr h (mixed_settled order horder rorder pick doc_content P O Pr h M)). Qed.
(** Whoever is a member is so by delegations that the client has, that give no more access than any of those they rest on,
    and that start at the group's own key. *)
Theorem C62_authority h i g d : mixed h -> has_group h i g -> holds g d ->
  has_op h (MD d) /\ (forall q, in_chain d q -> has_op h (MD q) /\ rank (d_can d) <= rank (d_can q)) /\ exists root, in_chain d root /\ d_proof root = None /\ d_issuer root = i.
Proof.
  intros M G H. pose proof (mixed_settled order horder rorder pick doc_content P O Pr h M) as S. destruct (group_sound order P Pr h i g S G) as (ops & Ei & Hi & So & Pi & Hops).
  assert (Rf : in_chain d d) by apply rtc_refl. destruct (C17_no_escalation order ops g d d O Hi So H Rf) as (Hd & _ & Rt). rewrite Ei in Rt. split; [apply Hops, Hd|]. split; [|exact Rt].
  intros q C. destruct (C17_no_escalation order ops g d q O Hi So H C) as (_ & R & _). split; [|exact R]. apply (Hops (MD q)).
  pose proof (history_closed order ops g Hi) as Cl. clear - C Hd Cl. induction C as [|a b c S _ IH]; [exact Hd|]. apply IH. apply (Cl (MD a) (MD b) Hd). cbn. rewrite S. left.
Qed.
(** A delegation that the client has is in force unless it, or one it rests on, is revoked by a revocation the client has. *)
Theorem C62_kept h d : mixed h -> has_op h (MD d) -> orderable (about h (d_subject d)) -> untouched (about h (d_subject d)) d -> exists g, has_group h (d_subject d) g /\ holds g d.
Proof.
  intros M Hd Q U. pose proof (mixed_settled order horder rorder pick doc_content P O Pr h M) as S. destruct (se_known _ _ _ S (MD d) Hd) as [g G]. exists g. split; [exact G|].
  destruct (group_sound order P Pr h (d_subject d) g S G) as (ops & Ei & Hi & So & Pi & Hops).
  apply (C19_untouched_kept order ops g d O Hi So); [|apply Hops; auto|].
  - destruct Q as (f & A & B). exists f. split; [intros o p X Y; apply (A o p); [apply Hops, X|exact Y]|]. intros e p r X Y. apply B; apply Hops; assumption.
  - intros t r X Y. apply (U t r X). apply Hops, Y.
Qed.
(** A revocation by the group's key, or whose authority no other revocation hits, takes away what it revokes. *)
Theorem C62_revoked h r g : mixed h -> has_op h (MR r) -> has_group h (r_subject r) g -> orderable (about h (r_subject r)) -> revoked_once (about h (r_subject r)) ->
  match r_proof r with Some p => untouched (fun o => (has_op h o /\ op_subject o = r_subject r) /\ o <> MR r) p | None => r_issuer r = r_subject r end -> ~ holds g (r_revoke r).
Proof.
  intros M Hd G Q V U. pose proof (mixed_settled order horder rorder pick doc_content P O Pr h M) as S.
  destruct (group_sound order P Pr h (r_subject r) g S G) as (ops & Ei & Hi & So & Pi & Hops).
  apply (C19_revoked_gone order ops g r O Hi So).
  - destruct Q as (f & A & B). exists f. split; [intros o p X Y; apply (A o p); [apply Hops, X|exact Y]|]. intros e p r' X Y. apply B; apply Hops; assumption.
  - intros a b X Y. apply V; apply Hops; assumption.
  - apply Hops. auto.
  - destruct (r_proof r) as [p|]; [|congruence]. intros t r' X [Y N]. apply (U t r' X). split; [apply Hops, Y|exact N].
Qed.
End props.

(** Two clients that have the same operations of a group or document, however they came by them, have the same members with
    the same delegations. *)
Theorem C62_agree order order' horder horder' rorder rorder' pick pick' doc_content doc_content' P h h' i g g' : some_order order -> some_order order' -> proper P ->
  mixed order horder rorder pick doc_content P h -> mixed order' horder' rorder' pick' doc_content' P h' -> has_group h i g -> has_group h' i g' ->
  (forall o, op_subject o = i -> has_op h o <-> has_op h' o) -> revoked_once (fun o => has_op h o /\ op_subject o = i) -> gr_members g = gr_members g' /\ gr_active g = gr_active g'.
Proof.
  intros O O' Pr M M' G G' Same V. pose proof (mixed_settled order horder rorder pick doc_content P O Pr h M) as S. pose proof (mixed_settled order' horder' rorder' pick' doc_content' P O' Pr h' M') as S'.
  destruct (group_sound order P Pr h i g S G) as (ops & Ei & Hi & So & Pi & Hops). destruct (group_sound order' P Pr h' i g' S' G') as (ops' & Ei' & Hi' & So' & Pi' & Hops').
  apply (C20_converge_partial order order' ops ops' g g' O O' Hi Hi'); [|exact So|].
  - intros o. rewrite Hops, Hops'. split; intros [A B]; (split; [apply (Same o B), A|exact B]).
  - intros a b X Y. apply V; apply Hops; assumption.
Qed.

Print Assumptions C62_groups.
Print Assumptions C62_tidy.
Print Assumptions C62_authority.
Print Assumptions C62_kept.
Print Assumptions C62_revoked.
Print Assumptions C62_agree.
