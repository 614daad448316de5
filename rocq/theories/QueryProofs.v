(** Proofs about what a client answers when asked who has access to what. *)
From Coq Require Import Arith Lia.
From stdpp Require Import base list gmap relations.
From Verif Require Import ResModel KeysModel TreeModel OpsModel CgkaModel.
From Verif Require Import AccessModel GroupModel CgkaSpec GroupSpec GroupHistory GroupTransitive GroupPropsProofs PrekeyModel HiveModel HiveSpec SyncModel SyncProofs DocModel DocSpec DocProofs QueryModel.

Section query.
Context (order : gset nat -> list nat) (O : some_order order).

Lemma note_none h a l : foldl (note_access order h a) None l = None.
Proof. induction l as [|g l IH]; [reflexivity|exact IH]. Qed.
Lemma note_spec h a l : forall m, NoDup (map gr_id l) -> (forall g, g ∈ l -> is_Some (caps_of order h g)) -> (forall g, g ∈ l -> m !! gr_id g = None) ->
  exists m', foldl (note_access order h a) (Some m) l = Some m' /\
    forall i c, m' !! i = Some c <-> m !! i = Some c \/ exists g caps, g ∈ l /\ gr_id g = i /\ caps_of order h g = Some caps /\ caps !! a = Some c.
Proof.
  induction l as [|g l IH]; intros m ND S N; cbn [foldl].
  - exists m. split; [reflexivity|]. intros i c. split; [auto|]. intros [X|(g & caps & X & _)]; [exact X|inversion X].
  - apply NoDup_cons in ND as [Ng ND]. fold (map gr_id l) in *. assert (Hg : g ∈ g :: l) by left. destruct (S g Hg) as [caps E]. unfold note_access at 2. rewrite E.
    assert (N' : forall g0, g0 ∈ l -> gr_id g0 <> gr_id g). { intros g0 H0 X. apply Ng. rewrite <- X. apply elem_of_list_fmap. eauto. }
    destruct (IH (match caps !! a with Some c => <[gr_id g := c]> m | None => m end) ND) as (m' & F & K).
    + intros g0 H0. apply S. right. exact H0.
    + intros g0 H0. destruct (caps !! a); [rewrite lookup_insert_ne by (apply not_eq_sym, N', H0)|]; apply N; right; exact H0.
    + exists m'. split; [exact F|]. intros i c. rewrite K. split.
      * intros [X|(g0 & c0 & H0 & R)]; [|right; exists g0, c0; split; [right; exact H0|exact R]].
        destruct (caps !! a) as [c1|] eqn:Ec; [|auto]. apply lookup_insert_Some in X as [[<- <-]|[_ X]]; [|auto]. right. exists g, caps. auto.
      * intros [X|(g0 & c0 & H0 & Ei & E0 & Ea)].
        { left. destruct (caps !! a) as [c1|]; [|exact X]. rewrite lookup_insert_ne; [exact X|]. intros <-. rewrite (N g Hg) in X. discriminate. }
        apply elem_of_cons in H0 as [->|H0]; [|right; exists g0, c0; auto]. left. rewrite E in E0. injection E0 as <-. rewrite Ea, <- Ei. apply lookup_insert.
Qed.
Lemma omap_ids (m : gmap ident group) l : (forall i g, m !! i = Some g -> gr_id g = i) -> (forall i, i ∈ l -> is_Some (m !! i)) -> map gr_id (omap (m !!.) l) = l.
Proof.
  intros Id. induction l as [|i l IH]; intros S; cbn; [reflexivity|]. destruct (S i ltac:(left)) as [g E]. rewrite E. cbn. f_equal; [exact (Id i g E)|]. apply IH. intros j Hj. apply S. right. exact Hj.
Qed.
Lemma entries_ids (m : gmap ident group) : (forall i g, m !! i = Some g -> gr_id g = i) -> map gr_id (entries order m) = order (dom m).
Proof. intros Id. apply omap_ids; [exact Id|]. intros i Hi. apply elem_of_dom. rewrite (O (dom m)) in Hi. apply elem_of_elements, Hi. Qed.
Lemma order_nodup s : NoDup (order s).
Proof. rewrite (O s). apply NoDup_elements. Qed.
Lemma order_in s i : i ∈ order s <-> i ∈ s.
Proof. rewrite (O s). apply elem_of_elements. Qed.

Context (P : mop -> Prop) (W : well_signed P) (h : client) (T : tidy order P h).
Lemma membered_spec i g : membered_at h i = Some g <-> has_group h i g.
Proof.
  unfold membered_at, has_group. pose proof (proj1 (proj2 T) i) as On. destruct (h_docs h !! i) as [f|] eqn:D; [|split; [auto|intros [X|X]; [exact X|discriminate]]].
  split; [auto|]. intros [X|X]; [exfalso; apply On; [rewrite X; eauto|eauto]|exact X].
Qed.
Lemma members_spec i g : has_group h i g -> exists caps, reachable_members order h i = Some caps /\ caps_of order h g = Some caps /\ forall a, a <> i -> is_Some (caps !! a) <-> belongs (h_env h) i a.
Proof.
  intros G. unfold reachable_members. rewrite (proj2 (membered_spec i g) G). destruct (DocProofs.caps_spec order O P W h T i g G) as (caps & E & K). exists caps. auto.
Qed.
Lemma all_caps g : (exists i, has_group h i g) -> is_Some (caps_of order h g).
Proof. intros [i G]. destruct (members_spec i g G) as (caps & _ & E & _). eauto. Qed.
Lemma docs_spec a : exists m, docs_reachable_by order h a = Some m /\
  forall i c, m !! i = Some c <-> is_Some (h_docs h !! i) /\ exists caps, reachable_members order h i = Some caps /\ caps !! a = Some c.
Proof.
  assert (Id : forall i g, h_docs h !! i = Some g -> gr_id g = i) by (intros i g D; apply (proj1 T i g); right; exact D).
  destruct (note_spec h a (entries order (h_docs h)) ∅) as (m & F & K).
  - rewrite (entries_ids _ Id). apply order_nodup.
  - intros g Hg. apply (SyncProofs.entries_in order O) in Hg as [i D]. apply all_caps. exists i. right. exact D.
  - intros g _. apply lookup_empty.
  - exists m. split; [exact F|]. intros i c. rewrite K. split.
    + intros [X|(g & caps & Hg & Ei & E & Ea)]; [rewrite lookup_empty in X; discriminate|]. apply (SyncProofs.entries_in order O) in Hg as [j D]. rewrite <- Ei, (Id j g D).
      split; [eauto|]. exists caps. split; [|exact Ea]. unfold reachable_members, membered_at. rewrite D. exact E.
    + intros [[g D] (caps & E & Ea)]. right. exists g, caps. split; [apply (SyncProofs.entries_in order O); eauto|]. split; [exact (Id i g D)|]. split; [|exact Ea].
      unfold reachable_members, membered_at in E. rewrite D in E. exact E.
Qed.
Lemma membereds_spec a : exists m, membered_reachable_by order h a = Some m /\
  forall i c, m !! i = Some c <-> exists caps, reachable_members order h i = Some caps /\ caps !! a = Some c.
Proof.
  assert (Id : forall i g, h_docs h !! i = Some g -> gr_id g = i) by (intros i g D; apply (proj1 T i g); right; exact D).
  assert (Ig : forall i g, h_groups h !! i = Some g -> gr_id g = i) by (intros i g D; apply (proj1 T i g); left; exact D).
  assert (El : forall g, g ∈ entries order (h_groups h) ++ entries order (h_docs h) <-> exists i, has_group h i g).
  { intros g. rewrite elem_of_app, !(SyncProofs.entries_in order O). unfold has_group. split; [intros [[i X]|[i X]]; eauto|intros (i & [X|X]); eauto]. }
  destruct (note_spec h a (entries order (h_groups h) ++ entries order (h_docs h)) ∅) as (m & F & K).
  - rewrite map_app, (entries_ids _ Id), (entries_ids _ Ig). apply NoDup_app. split; [apply order_nodup|]. split; [|apply order_nodup].
    intros i A B. apply order_in, elem_of_dom in A. apply order_in, elem_of_dom in B. exact (proj1 (proj2 T) i A B).
  - intros g Hg. apply El in Hg. apply all_caps, Hg.
  - intros g _. apply lookup_empty.
  - exists m. split; [exact F|]. intros i c. rewrite K. split.
    + intros [X|(g & caps & Hg & Ei & E & Ea)]; [rewrite lookup_empty in X; discriminate|]. apply El in Hg as [j G]. assert (Ej : gr_id g = j) by apply (proj1 T j g G). rewrite <- Ei, Ej.
      exists caps. split; [|exact Ea]. unfold reachable_members. rewrite (proj2 (membered_spec j g) G). exact E.
    + intros (caps & E & Ea). right. unfold reachable_members in E. destruct (membered_at h i) as [g|] eqn:Mg; [|discriminate]. apply membered_spec in Mg. exists g, caps.
      split; [apply El; eauto|]. split; [apply (proj1 T i g Mg)|]. auto.
Qed.
End query.

(** ** Those whose delegations were revoked *)
Section revoked.
Context (order : gset nat -> list nat) (O : some_order order).
Definition note_revoked (g : group) (m : gmap ident access) (r : rev) : gmap ident access :=
  match gr_members g !! d_delegate (r_revoke r) with
  | Some _ => m
  | None => <[d_delegate (r_revoke r) := match m !! d_delegate (r_revoke r) with Some a => amax a (d_can (r_revoke r)) | None => d_can (r_revoke r) end]> m
  end.
(** [c] is the greatest access that one of the revocations takes from [a]. *)
Definition greatest (l : list rev) (a : ident) (c : access) : Prop :=
  (exists r, r ∈ l /\ d_delegate (r_revoke r) = a /\ d_can (r_revoke r) = c) /\ forall r, r ∈ l -> d_delegate (r_revoke r) = a -> rank (d_can (r_revoke r)) <= rank c.
Lemma amax_rank x y : rank x <= rank (amax x y) /\ rank y <= rank (amax x y) /\ (amax x y = x \/ amax x y = y).
Proof. destruct x, y; cbn; (split; [lia|]); (split; [lia|]); auto. Qed.
Lemma noted_spec g l : forall a, gr_members g !! a = None ->
  match foldl (note_revoked g) ∅ l !! a with Some c => greatest l a c | None => forall r, r ∈ l -> d_delegate (r_revoke r) <> a end.
Proof.
  induction l as [|r l IH] using List.rev_ind; intros a N.
  - cbn [foldl]. rewrite lookup_empty. intros r H. inversion H.
  - rewrite foldl_app. cbn [foldl]. specialize (IH a N). set (m := foldl _ _ l) in *. unfold note_revoked. destruct (decide (d_delegate (r_revoke r) = a)) as [E|E].
    + rewrite E, N, lookup_insert. destruct (m !! a) as [c|].
      * destruct IH as [(r0 & H0 & E0 & C0) M]. destruct (amax_rank c (d_can (r_revoke r))) as (A & B & D). split.
        { destruct D as [-> | ->]; [exists r0|exists r]; rewrite elem_of_app, elem_of_list_singleton; auto. }
        intros r1 H1 E1. apply elem_of_app in H1 as [H1|H1]; [pose proof (M r1 H1 E1); lia|apply elem_of_list_singleton in H1 as ->; exact B].
      * split; [exists r; rewrite elem_of_app, elem_of_list_singleton; auto|]. intros r1 H1 E1. apply elem_of_app in H1 as [H1|H1]; [destruct (IH r1 H1 E1)|apply elem_of_list_singleton in H1 as ->; lia].
    + assert (X : match gr_members g !! d_delegate (r_revoke r) with Some _ => m | None => <[d_delegate (r_revoke r) := match m !! d_delegate (r_revoke r) with Some a0 => amax a0 (d_can (r_revoke r)) | None => d_can (r_revoke r) end]> m end !! a = m !! a).
      { destruct (gr_members g !! d_delegate (r_revoke r)); [reflexivity|]. apply lookup_insert_ne, E. }
      rewrite X. destruct (m !! a) as [c|].
      * destruct IH as [(r0 & H0 & E0 & C0) M]. split; [exists r0; rewrite elem_of_app; auto|]. intros r1 H1 E1. apply elem_of_app in H1 as [H1|H1]; [auto|]. apply elem_of_list_singleton in H1 as ->. contradiction.
      * intros r1 H1 E1. apply elem_of_app in H1 as [H1|H1]; [exact (IH r1 H1 E1)|]. apply elem_of_list_singleton in H1 as ->. contradiction.
Qed.
Lemma noted_member g l a : gr_members g !! a <> None -> foldl (note_revoked g) ∅ l !! a = None.
Proof.
  intros N. induction l as [|r l IH] using List.rev_ind; [apply lookup_empty|]. rewrite foldl_app. cbn [foldl]. unfold note_revoked at 1. destruct (gr_members g !! d_delegate (r_revoke r)) eqn:E; [exact IH|].
  rewrite lookup_insert_ne; [exact IH|]. intros <-. contradiction.
Qed.
Lemma revoked_members_spec g a c : revoked_members order g !! a = Some c <->
  gr_members g !! a = None /\ (exists s r, gr_active g !! s = Some r /\ d_delegate (r_revoke r) = a /\ d_can (r_revoke r) = c) /\
  forall s r, gr_active g !! s = Some r -> d_delegate (r_revoke r) = a -> rank (d_can (r_revoke r)) <= rank c.
Proof.
  change (revoked_members order g) with (foldl (note_revoked g) ∅ (entries order (gr_active g))).
  assert (El : forall r, r ∈ entries order (gr_active g) <-> exists s, gr_active g !! s = Some r) by (intros r; apply (SyncProofs.entries_in order O)).
  destruct (gr_members g !! a) as [l|] eqn:N.
  - rewrite noted_member by congruence. split; [discriminate|]. intros (X & _). discriminate.
  - pose proof (noted_spec g (entries order (gr_active g)) a N) as X. destruct (foldl _ _ _ !! a) as [c0|]; split.
    + intros [= ->]. destruct X as [(r & H & E & C) M]. split; [reflexivity|]. split; [apply El in H as [s H]; eauto|]. intros s r0 H0. apply M, El. eauto.
    + intros (_ & (s & r & H & E & C) & M). destruct X as [(r0 & H0 & E0 & C0) M0]. f_equal. assert (A : rank c <= rank c0) by (rewrite <- C; apply M0; [apply El; eauto|exact E]).
      apply El in H0 as [s0 H0]. pose proof (M s0 r0 H0 E0) as B. rewrite C0 in B. destruct c, c0; cbn in *; (reflexivity || lia).
    + discriminate.
    + intros (_ & (s & r & H & E & _) & _). destruct (X r); [apply El; eauto|exact E].
Qed.
End revoked.
