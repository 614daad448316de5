(** C69: the numbers a client reports are the numbers of what it has. *)
From Coq Require Import Arith Lia.
From stdpp Require Import base list gmap relations.
From Verif Require Import ResModel KeysModel TreeModel OpsModel CgkaModel.
From Verif Require Import AccessModel GroupModel CgkaSpec GroupSpec GroupPropsProofs GroupExamples PrekeyModel HiveModel HiveSpec SyncModel DocModel DocSpec DocExamples.
From Verif Require Import ArchiveModel ArchiveSpec TransactModel ArriveModel SettleSpec SettleProofs SettleProps RememberModel RememberSpec RememberProofs RememberProps RestoreProps ResumeProofs TallyModel TallySpec TallyProofs.

Section props.
Context (order : gset nat -> list nat) (horder : gset digest -> list digest) (rorder : gset (member_id * nat) -> list (member_id * nat)).
Context (pick : client -> ident -> ident -> share_key) (doc_content : nat -> ident -> bool) (P : mop -> Prop).
Context (O : some_order order) (Pr : proper P).
Notation mixed := (mixed order horder rorder pick doc_content P).
Notation later := (later order horder rorder pick doc_content P).

(** In every state: the people, groups and documents that can be looked up, the prekey operations that people have published, and the
    operations of the keys of all documents. *)
Theorem C69_things h :
  counts (ta_people (stats h)) (fun i => is_Some (ks_indies (h_keys h) !! i)) /\ counts (ta_groups (stats h)) (fun i => is_Some (h_groups h !! i)) /\
  counts (ta_docs (stats h)) (fun i => is_Some (h_docs h !! i)) /\
  counts (ta_expanded (stats h)) (published h true) /\ counts (ta_rotated (stats h)) (published h false) /\ counts (ta_key_ops (stats h)) (key_op h).
Proof. do 3 (split; [apply counts_dom|]). split; [apply count_keys_ok|]. split; [apply count_keys_ok|apply count_key_ops_ok]. Qed.
(** In every state that calls and received events lead to: the delegations and revocations that the client has. *)
Theorem C69_operations h : mixed h -> counts (ta_dlgs (stats h)) (fun d => has_op h (MD d)) /\ counts (ta_revs (stats h)) (fun r => has_op h (MR r)).
Proof.
  intros M. pose proof (mixed_settled order horder rorder pick doc_content P O Pr h M) as S. split; [apply (counts_values (h_dlgs h) d_sig)|apply (counts_values (h_revs h) r_sig)].
  - intros i d E. exact (se_dlgs _ _ _ S i d E).
  - intros i r E. exact (se_revs _ _ _ S i r E).
Qed.
(** In every state: the events of each kind that wait, all and those of the active agent; together they are the whole queue. *)
Theorem C69_waiting h k : counts (waiting (stats h) k).1 (waits h k) /\ counts (waiting (stats h) k).2 (waits_own h k) /\ (waiting (stats h) k).2 <= (waiting (stats h) k).1.
Proof.
  rewrite waiting_stats. destruct (count_waiting_ok (me h) k (h_pending h)) as [A B].
  assert (A' : counts (count_waiting (me h) k (h_pending h)).1 (waits h k)).
  { eapply counts_iff; [|exact A]. intros n. split; intros (x & E & K); exists x; (split; [exact E|apply kind_ok, K]). }
  assert (B' : counts (count_waiting (me h) k (h_pending h)).2 (waits_own h k)).
  { eapply counts_iff; [|exact B]. intros n. split; intros (x & E & K & S); exists x; (split; [exact E|]); (split; [apply kind_ok, K|apply signer_ok, S]). }
  split; [exact A'|]. split; [exact B'|]. refine (counts_le _ _ _ _ _ B' A'). intros n (x & E & K & _). exists x. auto.
Qed.
Theorem C69_queue h : (ta_wait_expanded (stats h)).1 + (ta_wait_rotated (stats h)).1 + (ta_wait_key (stats h)).1 + (ta_wait_dlg (stats h)).1 + (ta_wait_rev (stats h)).1 = length (h_pending h).
Proof. apply waiting_total. Qed.
(** Whatever is called and received afterwards, the numbers of people, groups, documents, delegations and revocations do not go down. *)
Theorem C69_grows h h' : mixed h -> later h h' ->
  ta_people (stats h) <= ta_people (stats h') /\ ta_groups (stats h) <= ta_groups (stats h') /\ ta_docs (stats h) <= ta_docs (stats h') /\
  ta_dlgs (stats h) <= ta_dlgs (stats h') /\ ta_revs (stats h) <= ta_revs (stats h').
Proof.
  intros M L. destruct (C64_kept order horder rorder pick doc_content P O Pr h h' M L) as [R M'].
  destruct (C69_things h) as (A1 & A2 & A3 & _). destruct (C69_things h') as (B1 & B2 & B3 & _). destruct (C69_operations h M) as [A4 A5]. destruct (C69_operations h' M') as [B4 B5].
  split; [exact (counts_le _ _ _ _ (rm_people _ _ R) A1 B1)|]. split; [exact (counts_le _ _ _ _ (rm_groups _ _ R) A2 B2)|]. split; [exact (counts_le _ _ _ _ (rm_docs _ _ R) A3 B3)|].
  split; [exact (counts_le _ _ _ _ (fun d => rm_ops _ _ R (MD d)) A4 B4)|exact (counts_le _ _ _ _ (fun r => rm_ops _ _ R (MR r)) A5 B5)].
Qed.
(** A client that was saved and loaded reports the same numbers. *)
Theorem C69_loaded h : mixed h -> orderable (has_op h) -> (forall d, has_op h (MD d) -> known_agent h (d_delegate d) = true) ->
  exists a b, into_archive order h = Some a /\ try_from_archive order a = Datatypes.inr b /\ stats b = stats h.
Proof.
  intros M Q K. destruct (C65_restored order horder rorder pick doc_content P O Pr h M Q K) as (a & b & E & B & A & _). exists a, b. split; [exact E|]. split; [exact B|].
  destruct (alike_groups h b A) as (G & D & _). unfold alike, forget in A. injection A as A1 A2 A3 A4 A5 A6 A7.
  assert (Sg : size (h_groups b) = size (h_groups h)) by (rewrite <- (map_size_fmap forget_group (h_groups b)), <- A2; apply map_size_fmap).
  assert (Sd : size (h_docs b) = size (h_docs h)) by (rewrite <- (map_size_fmap forget_group (h_docs b)), <- A3; apply map_size_fmap).
  assert (Sk : count_key_ops b = count_key_ops h).
  { apply (counts_unique _ _ (key_op h)); [|apply count_key_ops_ok]. eapply counts_iff; [|apply count_key_ops_ok]. intros [i o]. unfold key_op, cgka_of. cbn [fst snd]. rewrite A6.
    assert (X : is_Some (h_docs b !! i) <-> is_Some (h_docs h !! i)) by (rewrite <- (fmap_is_Some forget_group (h_docs b !! i)), <- (fmap_is_Some forget_group (h_docs h !! i)), <- !lookup_fmap, A3; reflexivity).
    rewrite X. reflexivity. }
  unfold stats. rewrite Sg, Sd, Sk, A1, A4, A5, A7. reflexivity.
Qed.
End props.
Print Assumptions C69_things.
Print Assumptions C69_operations.
Print Assumptions C69_waiting.
Print Assumptions C69_queue.
Print Assumptions C69_grows.
Print Assumptions C69_loaded.

(** ** The number of prekeys of the active agent *)
(** The number reported as the prekeys of the active agent is that of the operations that they published: rotating a prekey, which leaves
    as many prekeys as before, raises it. *)
Definition own_prekeys (h : client) : nat := match ks_indies (h_keys h) !! me h with Some x => size (in_prekeys x) | None => 0 end.
Theorem C69_active_prekeys_refuted : exists h h' o, make_prekey h (fun a k => active_rotate a 21 k) 62 = Some (h', o) /\ h = start 1 /\
  own_prekeys h = 1 /\ ta_active (stats h) = 1 /\ own_prekeys h' = 1 /\ ta_active (stats h') = 2.
Proof.
  assert (X : (fun p => (own_prekeys p.1, ta_active (stats p.1))) <$> make_prekey (start 1) (fun a k => active_rotate a 21 k) 62 = Some (1, 2)) by (vm_compute; reflexivity).
  assert (Y : own_prekeys (start 1) = 1) by (vm_compute; reflexivity). assert (Z : ta_active (stats (start 1)) = 1) by (vm_compute; reflexivity).
  destruct (make_prekey (start 1) (fun a k => active_rotate a 21 k) 62) as [[h' o]|] eqn:E; [|discriminate X]. exists (start 1), h', o. split; [exact E|]. split; [reflexivity|].
  split; [exact Y|]. split; [exact Z|]. cbn [fmap option_fmap option_map fst] in X. apply (inj Some) in X. apply pair_equal_spec in X. exact X.
Qed.
Print Assumptions C69_active_prekeys_refuted.
