(** A client that acts and receives can be stored and brought back, and answers as before. *)
From Coq Require Import Arith Lia.
From stdpp Require Import base list gmap relations.
From Verif Require Import ResModel KeysModel TreeModel OpsModel CgkaModel.
From Verif Require Import AccessModel GroupModel CgkaSpec GroupSpec GroupMembers GroupHistory GroupPropsProofs GroupProps PrekeyModel HiveModel HiveSpec SyncModel DocModel DocSpec DocProofs.
From Verif Require Import ArchiveModel ArchiveSpec ArchiveProofs ArchiveProps TransactModel ArriveModel SettleSpec SettleProofs SettleProps QueryModel RememberModel.

Section restore.
Context (order : gset nat -> list nat) (horder : gset digest -> list digest) (rorder : gset (member_id * nat) -> list (member_id * nat)).
Context (pick : client -> ident -> ident -> share_key) (doc_content : nat -> ident -> bool) (P : mop -> Prop).
Context (O : some_order order) (Pr : proper P).
Notation mixed := (mixed order horder rorder pick doc_content P).

Lemma mixed_intact h : mixed h -> orderable (has_op h) -> (forall d, has_op h (MD d) -> known_agent h (d_delegate d) = true) -> intact h.
Proof.
  intros M Q A. pose proof (mixed_settled order horder rorder pick doc_content P O Pr h M) as S.
  assert (H1 : forall i g o, has_group h i g -> is_head g o -> has_op h o /\ op_subject o = i /\ gr_id g = i).
  { intros i g o G H. destruct (group_sound order P Pr h i g S G) as (ops & Ei & Hi & So & _ & Hops). pose proof (history_consistent order O _ _ Hi (proj1 So) (proj2 So)) as C.
    assert (K : known g o) by (exists o; split; [exact H|apply rtc_refl]). apply (cs_known _ _ _ C), Hops in K as [K E]. auto. }
  split; [exact (se_dlgs _ _ _ S)|exact (se_revs _ _ _ S)| | |exact A|exact Q| | | |].
  - intros a b X Y. apply (proj1 (proj1 Pr)); apply (se_in _ _ _ S); assumption.
  - intros o p X D. destruct (se_known _ _ _ S o X) as [g G]. destruct (group_sound order P Pr h _ g S G) as (ops & _ & Hi & _ & _ & Hops). apply (Hops p).
    apply (history_closed order ops g Hi o p); [apply Hops; auto|exact D].
  - intros i g o G H. apply (H1 i g o G H).
  - intros i g G. destruct (group_sound order P Pr h i g S G) as (ops & Ei & Hi & So & _). exact (cs_filed _ _ _ (history_consistent order O _ _ Hi (proj1 So) (proj2 So))).
  - intros i g d G H E. destruct (H1 i g (MD d) G H) as (_ & X & ->). cbn in X. rewrite <- X. destruct d as [s j w c pr af co]. cbn in E. subst pr. reflexivity.
  - intros i g j l G L. destruct (group_sound order P Pr h i g S G) as (ops & Ei & Hi & [U D] & _ & Hops). destruct (members_wf order O ops g Hi U D j l L) as [N Dj]. split; [exact N|].
    intros d Hd. assert (X : holds g d) by (exists l; rewrite (Dj d Hd); auto). destruct (C62_authority order horder rorder pick doc_content P O Pr h i g d M G X) as [Y _]. exact Y.
Qed.
Lemma forget_caps (h : client) g : caps_of order (forget h) (forget_group g) = caps_of order h g.
Proof. unfold caps_of. rewrite forget_env. reflexivity. Qed.
Lemma forget_membered (h : client) i : membered_at (forget h) i = forget_group <$> membered_at h i.
Proof. unfold membered_at, forget. cbn. rewrite !lookup_fmap. destruct (h_docs h !! i); reflexivity. Qed.
Lemma forget_members (h : client) i : reachable_members order (forget h) i = reachable_members order h i.
Proof. unfold reachable_members. rewrite forget_membered. destruct (membered_at h i) as [g|]; [apply forget_caps|reflexivity]. Qed.
Lemma forget_entries (m : gmap ident group) : entries order (forget_group <$> m) = map forget_group (entries order m).
Proof.
  unfold entries. rewrite dom_fmap_L. induction (order (dom m)) as [|i l IH]; [reflexivity|]. cbn. rewrite lookup_fmap. destruct (m !! i); cbn; rewrite IH; reflexivity.
Qed.
Lemma forget_notes (h : client) a l : forall acc, foldl (note_access order (forget h) a) acc (map forget_group l) = foldl (note_access order h a) acc l.
Proof. induction l as [|g l IH]; intros acc; [reflexivity|]. cbn [map foldl]. rewrite IH. f_equal. unfold note_access. rewrite forget_caps. reflexivity. Qed.
Lemma forget_docs (h : client) a : docs_reachable_by order (forget h) a = docs_reachable_by order h a.
Proof. unfold docs_reachable_by. cbn [forget h_docs]. rewrite forget_entries. apply forget_notes. Qed.
Lemma forget_membereds (h : client) a : membered_reachable_by order (forget h) a = membered_reachable_by order h a.
Proof. unfold membered_reachable_by. cbn [forget h_docs h_groups]. rewrite !forget_entries, <- map_app. apply forget_notes. Qed.
Lemma forget_access (h : client) a i : access_for_doc order (forget h) a i = access_for_doc order h a i.
Proof. unfold access_for_doc. cbn [forget h_docs]. rewrite lookup_fmap. destruct (h_docs h !! i) as [g|]; [|reflexivity]. cbn. rewrite forget_caps. reflexivity. Qed.
Lemma forget_best (h : client) a i : best_access_for_doc order (forget h) a i = best_access_for_doc order h a i.
Proof. unfold best_access_for_doc. cbn [forget h_docs]. rewrite lookup_fmap. destruct (h_docs h !! i) as [g|]; [|reflexivity]. cbn. rewrite forget_caps. reflexivity. Qed.
Lemma forget_capabilities (h : client) i : doc_member_capabilities order (forget h) i = doc_member_capabilities order h i.
Proof. unfold doc_member_capabilities. cbn [forget h_docs]. rewrite lookup_fmap. destruct (h_docs h !! i) as [g|]; [|reflexivity]. cbn. rewrite forget_caps. unfold individuals_of. rewrite forget_env. reflexivity. Qed.
Lemma forget_revoked (h : client) i : revoked_members_for_doc order (forget h) i = ∅.
Proof.
  unfold revoked_members_for_doc. cbn [forget h_docs]. rewrite lookup_fmap. destruct (h_docs h !! i) as [g|]; [|reflexivity]. cbn. unfold individuals_of.
  apply map_empty. intros a. apply map_filter_lookup_None. left. assert (E : revoked_members order (forget_group g) = ∅); [|rewrite E; apply lookup_empty].
  unfold revoked_members. cbn. assert (Eo : order (dom (∅ : gmap sig rev)) = []) by (apply Permutation_nil; rewrite dom_empty_L; symmetry; rewrite (O ∅), elements_empty; reflexivity).
  rewrite Eo. reflexivity.
Qed.
End restore.
