(** Clients that act and receive: every group and document is what its operations make it. *)
From Coq Require Import Arith Lia.
From stdpp Require Import base list gmap relations.
From Verif Require Import ResModel KeysModel TreeModel OpsModel CgkaModel CgkaSpec.
From Verif Require Import AccessModel GroupModel CgkaSpec GroupSpec GroupHistory GroupPropsProofs PrekeyModel HiveModel HiveSpec HiveProofs SyncModel DocModel DocSpec DocProofs DocEffects TransactModel ArriveModel SettleSpec.

Section settle.
Context (order : gset nat -> list nat) (horder : gset digest -> list digest) (rorder : gset (member_id * nat) -> list (member_id * nat)).
Context (pick : client -> ident -> ident -> share_key) (doc_content : nat -> ident -> bool) (P : mop -> Prop).
Context (O : some_order order) (Pr : proper P).
Notation mixed := (mixed order horder rorder pick doc_content P).

Record settled (h : client) : Prop := {
  se_dlgs : forall s d, h_dlgs h !! s = Some d -> d_sig d = s;
  se_revs : forall s r, h_revs h !! s = Some r -> r_sig r = s;
  se_in : forall o, has_op h o -> P o;
  se_group : forall i g, has_group h i g -> made_of_ops order h i g;
  se_known : forall o, has_op h o -> exists g, has_group h (op_subject o) g;
  se_once : forall i, is_Some (h_groups h !! i) -> is_Some (h_docs h !! i) -> False;
  se_public : h_env h !! ks_public (h_keys h) = None
}.
Lemma WSP : well_signed P.
Proof. exact (proj1 Pr). Qed.

(** ** What leaves groups and operations alone *)
Definition same (h h' : client) : Prop :=
  h_groups h' = h_groups h /\ h_docs h' = h_docs h /\ h_dlgs h' = h_dlgs h /\ h_revs h' = h_revs h /\ ks_public (h_keys h') = ks_public (h_keys h).
Lemma same_refl h : same h h.
Proof. repeat split. Qed.
Lemma same_trans h h1 h2 : same h h1 -> same h1 h2 -> same h h2.
Proof. intros (A & B & C & D & E) (A' & B' & C' & D' & E'). repeat split; congruence. Qed.
Lemma same_settled h h' : same h h' -> settled h -> settled h'.
Proof.
  intros (A & B & C & D & E) [S1 S2 S3 S4 S5 S6 S7].
  assert (Ho : forall o, has_op h' o <-> has_op h o) by (intros [d|r]; unfold has_op; rewrite ?C, ?D; reflexivity).
  assert (Hg : forall i g, has_group h' i g <-> has_group h i g) by (intros i g; unfold has_group; rewrite A, B; reflexivity).
  split.
  - rewrite C. exact S1.
  - rewrite D. exact S2.
  - intros o X. apply S3, Ho, X.
  - intros i g G. apply Hg, S4 in G as (Ei & ops & H & Hops). split; [exact Ei|]. exists ops. split; [exact H|]. intros o. rewrite Hops, Ho. reflexivity.
  - intros o X. apply Ho, S5 in X as [g G]. exists g. apply Hg, G.
  - rewrite A, B. exact S6.
  - unfold h_env in *. rewrite A, B, E. exact S7.
Qed.
Lemma cg_same h c : same h (put_cg h c).
Proof. repeat split. Qed.
Lemma cgka_same h j c : same h (put_cgka h j c).
Proof. repeat split. Qed.
Lemma add_keys_same h i l hs h' r : doc_add_keys horder rorder h i l hs = (h', r) -> same h h'.
Proof.
  unfold doc_add_keys. destruct l; [intros [= <- <-]; apply same_refl|]. destruct (cgka_of h i); [|intros [= <- <-]; apply same_refl].
  destruct (add_keys _ _ _ _ _). intros [= <- <-]. apply cgka_same.
Qed.
Lemma add_to_docs_same pk gid who docs hs : forall h h' r, add_to_docs order horder rorder pk h gid who docs hs = (h', r) -> same h h'.
Proof.
  induction docs as [|j docs IH]; intros h h' r; cbn [add_to_docs]; [intros [= <- <-]; apply same_refl|].
  destruct (h_docs h !! j) as [g|]; [|apply IH]. destruct (negb _); [apply IH|]. destruct (pick_prekeys _ _ _ _ _) as [l|]; [|intros [= <- <-]; apply same_refl].
  destruct (doc_add_keys _ _ _ _ _ _) as [h1 [ops|e]] eqn:A; apply add_keys_same in A; [|intros [= <- <-]; exact A].
  destruct (add_to_docs _ _ _ _ _ _ _ _ _) as [h2 [ops'|e]] eqn:B; apply IH in B; intros [= <- <-]; eapply same_trans; eauto.
Qed.
Lemma remove_from_docs_same gid ids docs hs : forall h h' r, remove_from_docs order horder rorder h gid ids docs hs = (h', r) -> same h h'.
Proof.
  induction docs as [|j docs IH]; intros h h' r; cbn [remove_from_docs]; [intros [= <- <-]; apply same_refl|].
  destruct (h_docs h !! j) as [g|]; [|apply IH]. destruct (caps_of _ _ _) as [caps|]; [|intros [= <- <-]; apply same_refl]. destruct (bool_decide _); [|apply IH].
  cbv zeta. destruct (cgka_of h j) as [c|]; [|apply IH]. destruct (try_remove_keys _ _ _ _ _) as [c' [ops|e| |]]; [|intros [= <- <-]; apply cgka_same..].
  destruct (remove_from_docs _ _ _ _ _ _ _ _) as [h2 [ops'|e]] eqn:B; apply IH in B; intros [= <- <-]; (eapply same_trans; [apply cgka_same|exact B]).
Qed.

(** ** New operations in the stores *)
Definition stored (h : client) : Prop := (forall s d, h_dlgs h !! s = Some d -> d_sig d = s) /\ (forall s r, h_revs h !! s = Some r -> r_sig r = s).
Lemma put_dlg_spec (h : client) d : stored h -> (forall o, has_op h o -> P o) -> P (MD d) ->
  stored (put_dlg h d) /\ forall o, has_op (put_dlg h d) o <-> has_op h o \/ o = MD d.
Proof.
  intros [S1 S2] In Pd. split.
  - split; [|exact S2]. intros s e. cbn [put_dlg h_dlgs]. rewrite lookup_insert_Some. intros [[<- <-]|[_ X]]; [reflexivity|exact (S1 _ _ X)].
  - destruct (h_dlgs h !! d_sig d) as [e|] eqn:E; [|exact (put_dlg_ops h d E)].
    assert (e = d) as ->. { pose proof (S1 _ _ E) as Se. assert (He : has_op h (MD e)) by (cbn; rewrite Se; exact E). pose proof (proj1 WSP (MD e) (MD d) (In _ He) Pd Se) as [= ->]. reflexivity. }
    assert (Eq : put_dlg h d = h) by (destruct h; unfold put_dlg; cbn in *; rewrite insert_id by exact E; reflexivity). rewrite Eq. intros o. split; [auto|]. intros [X| ->]; [exact X|exact E].
Qed.
Lemma put_rev_spec (h : client) d : stored h -> (forall o, has_op h o -> P o) -> P (MR d) ->
  stored (put_rev h d) /\ forall o, has_op (put_rev h d) o <-> has_op h o \/ o = MR d.
Proof.
  intros [S1 S2] In Pd. split.
  - split; [exact S1|]. intros s e. cbn [put_rev h_revs]. rewrite lookup_insert_Some. intros [[<- <-]|[_ X]]; [reflexivity|exact (S2 _ _ X)].
  - destruct (h_revs h !! r_sig d) as [e|] eqn:E; [|exact (put_rev_ops h d E)].
    assert (e = d) as ->. { pose proof (S2 _ _ E) as Se. assert (He : has_op h (MR e)) by (cbn; rewrite Se; exact E). pose proof (proj1 WSP (MR e) (MR d) (In _ He) Pd Se) as [= ->]. reflexivity. }
    assert (Eq : put_rev h d = h) by (destruct h; unfold put_rev; cbn in *; rewrite insert_id by exact E; reflexivity). rewrite Eq. intros o. split; [auto|]. intros [X| ->]; [exact X|exact E].
Qed.
Lemma put_dlgs_spec ds : forall h : client, stored h -> (forall o, has_op h o -> P o) -> (forall d, d ∈ ds -> P (MD d)) ->
  stored (foldl put_dlg h ds) /\ (forall o, has_op (foldl put_dlg h ds) o <-> has_op h o \/ o ∈ map MD ds).
Proof.
  induction ds as [|d ds IH]; intros h S In Pd; cbn [foldl].
  - split; [exact S|]. intros o. cbn. rewrite elem_of_nil. tauto.
  - assert (Pd1 : P (MD d)) by (apply Pd; left). destruct (put_dlg_spec h d S In Pd1) as [S1 H1].
    destruct (IH (put_dlg h d) S1) as [S2 H2]; [intros o X; apply H1 in X as [X| ->]; auto|intros e He; apply Pd; right; exact He|].
    split; [exact S2|]. intros o. rewrite H2, H1. cbn [map]. rewrite elem_of_cons. tauto.
Qed.
Lemma put_revs_spec ds : forall h : client, stored h -> (forall o, has_op h o -> P o) -> (forall d, d ∈ ds -> P (MR d)) ->
  stored (foldl put_rev h ds) /\ (forall o, has_op (foldl put_rev h ds) o <-> has_op h o \/ o ∈ map MR ds).
Proof.
  induction ds as [|d ds IH]; intros h S In Pd; cbn [foldl].
  - split; [exact S|]. intros o. cbn. rewrite elem_of_nil. tauto.
  - assert (Pd1 : P (MR d)) by (apply Pd; left). destruct (put_rev_spec h d S In Pd1) as [S1 H1].
    destruct (IH (put_rev h d) S1) as [S2 H2]; [intros o X; apply H1 in X as [X| ->]; auto|intros e He; apply Pd; right; exact He|].
    split; [exact S2|]. intros o. rewrite H2, H1. cbn [map]. rewrite elem_of_cons. tauto.
Qed.
Lemma put_made_spec (h : client) ds rs : stored h -> (forall o, has_op h o -> P o) -> (forall d, d ∈ ds -> P (MD d)) -> (forall r, r ∈ rs -> P (MR r)) ->
  stored (put_made h ds rs) /\ (forall o, has_op (put_made h ds rs) o <-> has_op h o \/ o ∈ map MD ds \/ o ∈ map MR rs).
Proof.
  intros S In Pd Prv. unfold put_made. destruct (put_dlgs_spec ds h S In Pd) as [S1 H1].
  destruct (put_revs_spec rs _ S1) as [S2 H2]; [|exact Prv|].
  - intros o X. apply H1 in X as [X|X]; [auto|]. apply elem_of_list_fmap in X as (d & -> & Hd). auto.
  - split; [exact S2|]. intros o. rewrite H2, H1. tauto.
Qed.

(** ** One group or document changes *)
Lemma env_none_at (h : client) i : h_env h !! i = None <-> h_groups h !! i = None /\ h_docs h !! i = None.
Proof. unfold h_env. rewrite lookup_fmap, fmap_None, lookup_union_None. tauto. Qed.
Lemma settle h h' i g new ops : settled h -> stored h' -> (forall o, has_op h' o <-> has_op h o \/ new o) -> (forall o, new o -> P o) ->
  (forall j, j <> i -> h_groups h' !! j = h_groups h !! j /\ h_docs h' !! j = h_docs h !! j) ->
  (h_groups h' !! i = Some g /\ h_docs h' !! i = None) \/ (h_groups h' !! i = None /\ h_docs h' !! i = Some g) ->
  gr_id g = i -> history order ops g -> (forall o, o ∈ ops <-> (has_op h o /\ op_subject o = i) \/ new o) ->
  i <> ks_public (h_keys h) -> ks_public (h_keys h') = ks_public (h_keys h) -> settled h'.
Proof.
  intros S [F1 F2] Ho Pn Lj Li Ei H Hops Np Ep.
  assert (Sub : forall o, new o -> op_subject o = i). { intros o X. rewrite <- Ei. apply (history_subject order ops g H). apply Hops. auto. }
  assert (Gj : forall j f, j <> i -> has_group h' j f <-> has_group h j f). { intros j f N. unfold has_group. destruct (Lj j N) as [-> ->]. reflexivity. }
  assert (Gi : forall f, has_group h' i f <-> f = g). { intros f. unfold has_group. destruct Li as [[-> ->]|[-> ->]]; split; [intros [X|X]; congruence|intros ->; auto|intros [X|X]; congruence|intros ->; auto]. }
  split.
  - exact F1.
  - exact F2.
  - intros o X. apply Ho in X as [X|X]; [exact (se_in h S o X)|auto].
  - intros j f G. destruct (decide (j = i)) as [->|N].
    + apply Gi in G as ->. split; [exact Ei|]. exists ops. split; [exact H|]. intros o. rewrite Hops, Ho. split; [intros [[A B]|A]; auto|]. intros [[A|A] B]; auto.
    + apply (Gj j f N), (se_group h S) in G as (Ej & os & Hj & Hos). split; [exact Ej|]. exists os. split; [exact Hj|]. intros o. rewrite Hos, Ho.
      split; [intros [A B]; auto|]. intros [[A|A] B]; [auto|]. exfalso. apply N. rewrite <- B. apply Sub, A.
  - intros o X. apply Ho in X as [X|X].
    + destruct (se_known h S o X) as [f G]. destruct (decide (op_subject o = i)) as [E|N]; [exists g; rewrite E; apply Gi; reflexivity|]. exists f. apply Gj; assumption.
    + exists g. rewrite (Sub o X). apply Gi. reflexivity.
  - intros j. destruct (decide (j = i)) as [->|N]; [destruct Li as [[-> ->]|[-> ->]]; intros [? A] [? B]; discriminate|]. destruct (Lj j N) as [-> ->]. apply (se_once h S).
  - rewrite Ep. apply env_none_at. destruct (Lj (ks_public (h_keys h))) as [-> ->]; [congruence|]. apply env_none_at, (se_public h S).
Qed.
Lemma settled_stored h : settled h -> stored h.
Proof. intros S. split; [apply (se_dlgs h S)|apply (se_revs h S)]. Qed.
Lemma not_public h i g : settled h -> has_group h i g -> i <> ks_public (h_keys h).
Proof. intros S G ->. pose proof (se_public h S) as E. apply env_none_at in E as [A B]. destruct G; congruence. Qed.
Lemma group_sound h i g : settled h -> has_group h i g -> exists ops, gr_id g = i /\ history order ops g /\ sound ops /\ (forall o, o ∈ ops -> P o) /\ forall o, o ∈ ops <-> has_op h o /\ op_subject o = i.
Proof.
  intros S G. destruct (se_group h S i g G) as (Ei & ops & H & Hops). exists ops. assert (Pi : forall o, o ∈ ops -> P o) by (intros o X; apply Hops in X as [X _]; exact (se_in h S o X)).
  split; [exact Ei|]. split; [exact H|]. split; [exact (history_sound order P WSP ops g H Pi)|]. split; [exact Pi|exact Hops].
Qed.
(** The group or document [i] becomes [g], and the client has the operations [ds] and [rs] too. *)
Definition put_at (h : client) (i : ident) (g : group) : client := match h_groups h !! i with Some _ => put_group h i g | None => put_doc h i g end.
Lemma settle_put h i g g' ds rs (ops ops' : list mop) : settled h -> has_group h i g -> (forall o, o ∈ ops <-> has_op h o /\ op_subject o = i) ->
  gr_id g' = i -> history order ops' g' -> (forall o, o ∈ ops' <-> o ∈ ops \/ o ∈ map MD ds \/ o ∈ map MR rs) ->
  (forall d, d ∈ ds -> P (MD d)) -> (forall r, r ∈ rs -> P (MR r)) -> settled (put_made (put_at h i g') ds rs).
Proof.
  intros S G Hops Ei H Ho' Pd Prv. assert (St : stored (put_at h i g')) by (unfold put_at; destruct (h_groups h !! i); exact (settled_stored h S)).
  assert (So : forall o, has_op (put_at h i g') o <-> has_op h o) by (intros [d|r]; unfold put_at; destruct (h_groups h !! i); reflexivity).
  destruct (put_made_spec (put_at h i g') ds rs St) as [St' Ho]; [intros o X; apply So in X; exact (se_in h S o X)|exact Pd|exact Prv|].
  destruct (put_made_core (put_at h i g') ds rs) as [(E1 & E2 & E3) _].
  eapply (settle h _ i g' (fun o => o ∈ map MD ds \/ o ∈ map MR rs) ops'); [exact S|exact St'|intros o; rewrite Ho, So; tauto| | | |exact Ei|exact H| | |].
  - intros o [X|X]; apply elem_of_list_fmap in X as (y & -> & Hy); auto.
  - intros j N. rewrite E1, E2. unfold put_at. destruct (h_groups h !! i); cbn; rewrite ?lookup_insert_ne by congruence; auto.
  - rewrite E1, E2. unfold put_at. pose proof (se_once h S i) as On. destruct (h_groups h !! i) as [f|] eqn:Eg; cbn; rewrite lookup_insert.
    + left. split; [reflexivity|]. destruct (h_docs h !! i) eqn:Ed; [|reflexivity]. exfalso. eauto.
    + right. auto.
  - intros o. rewrite Ho', Hops. reflexivity.
  - eapply not_public; eauto.
  - rewrite E3. unfold put_at. destruct (h_groups h !! i); reflexivity.
Qed.

(** ** Adding and revoking *)
Lemma added_settled h i g g' who can content s d : settled h -> has_group h i g -> add_member order (h_env h) g who can (me h) content s = GOk (g', d) -> P (MD d) ->
  settled (put_made (put_at h i g') [d] []).
Proof.
  intros S G A Pd. destruct (group_sound h i g S G) as (ops & Ei & H & So & Pi & Hops).
  destruct (add_member_history order O (h_env h) ops g who can (me h) content s g' d H So A) as (H1 & _).
  eapply (settle_put h i g g' [d] [] ops (MD d :: ops)); [exact S|exact G|exact Hops| |exact H1| | |].
  - rewrite <- (history_subject order _ _ H1 (MD d) ltac:(left)). rewrite <- Ei.
    assert (R : exists e, receive_delegation order e g d = GOk g'). { unfold add_member in A. cbv zeta in A. match type of A with match ?X with _ => _ end = _ => destruct X as [p|] end; [|discriminate]. destruct (receive_delegation _ _ _ _) as [g1|] eqn:R; [|discriminate]. injection A as -> <-. eauto. }
    destruct R as [e R]. destruct (accepted_delegation _ _ _ _ _ R) as (Es & _). exact Es.
  - intros o. rewrite elem_of_cons. cbn. rewrite elem_of_list_singleton, elem_of_nil. tauto.
  - intros e Q. apply elem_of_list_singleton in Q as ->. exact Pd.
  - intros r Q. inversion Q.
Qed.
Lemma revoked_settled h i g g' target retain content sigs rs ds : settled h -> has_group h i g ->
  revoke_member order (h_env h) g target retain (me h) content sigs = GOk (g', rs, ds) -> (forall r, r ∈ rs -> P (MR r)) -> (forall d, d ∈ ds -> P (MD d)) ->
  settled (put_made (put_at h i g') ds rs).
Proof.
  intros S G A Prv Pd. destruct (group_sound h i g S G) as (ops & Ei & H & So & Pi & Hops).
  destruct (gr_members g !! target) as [l|] eqn:Lt.
  - set (ops' := reverse (map MD ds) ++ after_revs rs ops).
    assert (In' : forall o, o ∈ ops' <-> o ∈ ops \/ o ∈ map MD ds \/ o ∈ map MR rs).
    { intros o. unfold ops'. rewrite elem_of_app, elem_of_reverse, after_revs_in, !elem_of_list_fmap. split.
      - intros [(d & -> & Hd)|[(r & Hr & ->)|X]]; [right; left; eauto|right; right; eauto|auto].
      - intros [X|[(d & -> & Hd)|(r & -> & Hr)]]; eauto 6. }
    assert (P1 : forall o, o ∈ ops' -> P o). { intros o X. apply In' in X as [X|[X|X]]; [auto|apply elem_of_list_fmap in X as (y & -> & Hy); auto..]. }
    destruct (revoke_member_subject _ _ _ _ _ _ _ _ _ _ _ A) as (Ei' & Sr & Sd).
    assert (S1 : sound ops').
    { apply (from_sound P WSP ops' (gr_id g) P1). intros o X. apply In' in X as [X|[X|X]]; [apply (history_subject order _ _ H), X|apply elem_of_list_fmap in X as (y & -> & Hy)..]; [apply Sd, Hy|apply Sr, Hy]. }
    destruct (revoke_member_history order O (h_env h) ops g target retain (me h) content sigs g' rs ds H) as (H1 & _); [congruence|exact A|exact S1|].
    eapply (settle_put h i g g' ds rs ops ops'); [exact S|exact G|exact Hops|congruence|exact H1|exact In'|exact Pd|exact Prv].
  - assert (g' = g /\ rs = [] /\ ds = []) as (-> & -> & ->).
    { unfold revoke_member in A. cbv zeta in A. rewrite Lt in A. cbn in A. injection A as <- <- <-. rewrite delete_notin by exact Lt. destruct g; auto. }
    eapply (settle_put h i g g [] [] ops ops); [exact S|exact G|exact Hops|exact Ei|exact H| | |].
    + intros o. cbn. rewrite !elem_of_nil. tauto.
    + intros d X. inversion X.
    + intros d X. inversion X.
Qed.
Lemma put_at_group (h : client) i g g' : h_groups h !! i = Some g -> put_at h i g' = put_group h i g'.
Proof. intros E. unfold put_at. rewrite E. reflexivity. Qed.
Lemma put_at_doc (h : client) i g' : h_groups h !! i = None -> put_at h i g' = put_doc h i g'.
Proof. intros E. unfold put_at. rewrite E. reflexivity. Qed.
Lemma add_settled pk h i who can content s hs h' r : settled h -> (forall o, makes_adding order h i who can content s o -> P o) ->
  hive_add_member order horder rorder pk h i who can content s hs = (h', r) -> settled h'.
Proof.
  intros S Pm Q. unfold hive_add_member in Q. destruct (any_loop order h); [injection Q as <- <-; exact S|].
  destruct (h_groups h !! i) as [g|] eqn:G.
  - destruct (add_member order (h_env h) g who can (me h) content s) as [[g' d]|] eqn:A; [|injection Q as <- <-; exact S]. cbv zeta in Q.
    assert (S1 : settled (put_made (put_group h i g') [d] [])).
    { rewrite <- (put_at_group h i g g' G). eapply added_settled; [exact S|left; exact G|exact A|]. apply Pm. exists g, g', d. unfold has_group. auto. }
    destruct (delegation_hangs _ _ _ _ || _); [injection Q as <- <-; exact S1|]. destruct (is_reader can); [|injection Q as <- <-; exact S1].
    destruct (add_to_docs _ _ _ _ _ _ _ _ _) as [h2 [ops|e]] eqn:B; apply add_to_docs_same in B; injection Q as <- <-; exact (same_settled _ _ B S1).
  - destruct (h_docs h !! i) as [g|] eqn:D; [|injection Q as <- <-; exact S].
    destruct (add_member order (h_env h) g who can (me h) content s) as [[g' d]|] eqn:A; [|injection Q as <- <-; exact S]. cbv zeta in Q.
    assert (S1 : settled (put_made (put_doc h i g') [d] [])).
    { rewrite <- (put_at_doc h i g' G). eapply added_settled; [exact S|right; exact D|exact A|]. apply Pm. exists g, g', d. unfold has_group. auto. }
    destruct (delegation_hangs _ _ _ _ || _); [injection Q as <- <-; exact S1|]. destruct (is_reader can); [|injection Q as <- <-; exact S1].
    destruct (pick_prekeys _ _ _ _ _) as [l|]; [|injection Q as <- <-; exact S1].
    destruct (doc_add_keys _ _ _ _ _ _) as [h2 [ops|e]] eqn:B; apply add_keys_same in B; injection Q as <- <-; exact (same_settled _ _ B S1).
Qed.
Lemma revoke_settled h i target retain content sigs hs h' r : settled h -> (forall o, makes_revoking order h i target retain content sigs o -> P o) ->
  hive_revoke_member order horder rorder h i target retain content sigs hs = (h', r) -> settled h'.
Proof.
  intros S Pm Q. unfold hive_revoke_member in Q. destruct (any_loop order h); [injection Q as <- <-; exact S|].
  assert (X : forall g g' rs ds, has_group h i g -> revoke_member order (h_env h) g target retain (me h) content sigs = GOk (g', rs, ds) -> settled (put_made (put_at h i g') ds rs)).
  { intros g g' rs ds G A. eapply revoked_settled; [exact S|exact G|exact A| |].
    - intros y Hy. apply Pm. exists g, g', rs, ds. split; [exact G|]. split; [exact A|]. left. apply elem_of_list_fmap. eauto.
    - intros y Hy. apply Pm. exists g, g', rs, ds. split; [exact G|]. split; [exact A|]. right. apply elem_of_list_fmap. eauto. }
  destruct (h_groups h !! i) as [g|] eqn:G.
  - destruct (behind _ _ _) as [ids|]; [|injection Q as <- <-; exact S].
    destruct (revoke_member order (h_env h) g target retain (me h) content sigs) as [[[g' rs] ds]|] eqn:A; [|injection Q as <- <-; exact S].
    destruct (revoking_hangs _ _ _ _ _); [injection Q as <- <-; exact S|]. cbv zeta in Q. specialize (X g g' rs ds (or_introl G) A). rewrite (put_at_group h i g g' G) in X.
    destruct (bool_decide _); [injection Q as <- <-; exact X|]. destruct (remove_from_docs _ _ _ _ _ _ _ _) as [h2 [ops|e]] eqn:B; apply remove_from_docs_same in B; injection Q as <- <-; exact (same_settled _ _ B X).
  - destruct (h_docs h !! i) as [g|] eqn:D; [|injection Q as <- <-; exact S]. destruct (behind _ _ _) as [ids|]; [|injection Q as <- <-; exact S].
    destruct (revoke_member order (h_env h) g target retain (me h) content sigs) as [[[g' rs] ds]|] eqn:A; [|injection Q as <- <-; exact S].
    destruct (revoking_hangs _ _ _ _ _); [injection Q as <- <-; exact S|]. cbv zeta in Q. specialize (X g g' rs ds (or_intror D) A). rewrite (put_at_doc h i g' G) in X.
    destruct (group_individual_ids _ _ _) as [still|]; [|injection Q as <- <-; exact X]. destruct (order _) as [|a gone]; [injection Q as <- <-; exact X|].
    destruct (cgka_of _ i) as [c|]; [|injection Q as <- <-; exact X].
    destruct (remove_keys _ _ _ _ _) as [c' [ops|e| |]]; injection Q as <- <-; exact (same_settled _ _ (cgka_same _ _ _) X).
Qed.

(** ** New groups and documents *)
Lemma new_settled (h h1 : client) i g parents content : settled h -> h_env h !! i = None -> i <> ks_public (h_keys h) -> parents <> [] -> NoDup parents.*2 ->
  (forall x, x ∈ parents -> P (MD (Dlg x.2 i x.1 Admin None [] content))) -> generate_group order i parents content = Some g ->
  stored h1 -> (forall o, has_op h1 o <-> has_op h o) -> (forall j, j <> i -> h_groups h1 !! j = h_groups h !! j /\ h_docs h1 !! j = h_docs h !! j) ->
  (h_groups h1 !! i = Some g /\ h_docs h1 !! i = None) \/ (h_groups h1 !! i = None /\ h_docs h1 !! i = Some g) -> ks_public (h_keys h1) = ks_public (h_keys h) ->
  settled (put_made h1 (map snd (map_to_list (gr_dheads g))) []).
Proof.
  intros S N Np Ne ND Pp E St So Lj Li Ep. pose proof (h_generate order i parents content g Ne ND E) as H. set (ops := map _ parents) in H.
  assert (Pi : forall o, o ∈ ops -> P o) by (intros o X; apply elem_of_list_fmap in X as (x & -> & Hx); auto).
  pose proof (history_sound order P WSP ops g H Pi) as Sd. pose proof (history_consistent order O ops g H (proj1 Sd) (proj2 Sd)) as C.
  assert (Heads : forall o, o ∈ map MD (map snd (map_to_list (gr_dheads g))) <-> o ∈ ops).
  { intros o. rewrite <- (cs_known _ _ _ C). split.
    - intros X. apply elem_of_list_fmap in X as (d & -> & X). apply elem_of_list_fmap in X as ([s d'] & -> & X). apply elem_of_map_to_list in X. cbn [snd] in *.
      exists (MD d'). split; [|apply rtc_refl]. cbn. rewrite (proj1 (cs_filed _ _ _ C) s d' X). exact X.
    - intros X. assert (Xo := X). apply (cs_known _ _ _ C) in Xo. destruct X as (y & Hy & R). assert (Yo : y ∈ ops) by (apply (cs_known _ _ _ C); exists y; split; [exact Hy|apply rtc_refl]).
      assert (y = o) as ->. { inversion R as [|? z ? S1 S2]; subst; [reflexivity|]. exfalso. apply elem_of_list_fmap in Yo as (x & -> & _). cbn in S1. inversion S1. }
      apply elem_of_list_fmap in Xo as (x & -> & _). cbn in Hy. apply elem_of_list_fmap. eexists. split; [reflexivity|]. apply elem_of_list_fmap. eexists (_, _). split; [|apply elem_of_map_to_list; exact Hy]. reflexivity. }
  set (ds := map snd (map_to_list (gr_dheads g))) in *.
  assert (Pd : forall d, d ∈ ds -> P (MD d)) by (intros d X; apply Pi, Heads, elem_of_list_fmap; eauto).
  destruct (put_made_spec h1 ds [] St) as [St' Ho]; [intros o X; apply So in X; exact (se_in h S o X)|exact Pd|intros r X; inversion X|].
  destruct (put_made_core h1 ds []) as [(E1 & E2 & E3) _].
  assert (None0 : forall o, has_op h o -> op_subject o <> i). { intros o X Eo. destruct (se_known h S o X) as [f G]. rewrite Eo in G. apply env_none_at in N as [A B]. destruct G; congruence. }
  eapply (settle h _ i g (fun o => o ∈ ops) ops); [exact S|exact St'| |exact Pi|intros j Nj; rewrite E1, E2; apply Lj, Nj|rewrite E1, E2; exact Li|apply (rebuild_keeps _ _ _ E)|exact H| |exact Np|rewrite E3; exact Ep].
  - intros o. rewrite Ho, So, Heads. cbn. rewrite elem_of_nil. tauto.
  - intros o. split; [auto|]. intros [[X Eo]|X]; [exfalso; exact (None0 o X Eo)|exact X].
Qed.
Lemma new_group_settled (h : client) i g parents content : settled h -> h_env h !! i = None -> i <> ks_public (h_keys h) -> parents <> [] -> NoDup parents.*2 ->
  (forall x, x ∈ parents -> P (MD (Dlg x.2 i x.1 Admin None [] content))) -> generate_group order i parents content = Some g ->
  settled (put_made (new_plain_group h i g) (map snd (map_to_list (gr_dheads g))) []).
Proof.
  intros S N Np Ne ND Pp E. pose proof N as N'. apply env_none_at in N' as [N1 N2]. eapply (new_settled h (new_plain_group h i g) i g parents content); try assumption.
  - exact (settled_stored h S).
  - intros [d|r]; reflexivity.
  - intros j Nj. cbn. rewrite lookup_insert_ne by congruence. auto.
  - left. cbn. rewrite lookup_insert. auto.
  - reflexivity.
Qed.
Lemma new_doc_settled (h : client) i g parents content : settled h -> h_env h !! i = None -> i <> ks_public (h_keys h) -> parents <> [] -> NoDup parents.*2 ->
  (forall x, x ∈ parents -> P (MD (Dlg x.2 i x.1 Admin None [] content))) -> generate_group order i parents content = Some g ->
  settled (put_made (new_document h i g) (map snd (map_to_list (gr_dheads g))) []).
Proof.
  intros S N Np Ne ND Pp E. pose proof N as N'. apply env_none_at in N' as [N1 N2]. eapply (new_settled h (new_document h i g) i g parents content); try assumption.
  - exact (settled_stored h S).
  - intros [d|r]; reflexivity.
  - intros j Nj. cbn. rewrite lookup_insert_ne by congruence. auto.
  - right. cbn. rewrite lookup_insert. auto.
  - reflexivity.
Qed.

(** ** Receiving *)
Lemma resolve_dlg_parents (h : client) x d : settled h -> resolve_dlg h x = Datatypes.inr d -> (forall o, o ∈ parents (MD d) -> has_op h o) /\ d_sig d = sd_sig x /\ d_content d = sd_content x.
Proof.
  intros S R. unfold resolve_dlg in R. destruct (find_proof_dlg (h_dlgs h) (sd_proof x)) as [|p] eqn:Ep; [discriminate|]. destruct (negb _); [discriminate|].
  destruct (find_revs (h_revs h) (sd_after x)) as [|rs] eqn:Er; [discriminate|]. injection R as <-. split; [|auto].
  assert (Hr : forall l rs, find_revs (h_revs h) l = Datatypes.inr rs -> forall r, r ∈ rs -> has_op h (MR r)).
  { induction l as [|s l IH]; intros rs0; cbn; [intros [= <-] r X; inversion X|]. destruct (h_revs h !! s) as [r0|] eqn:E0; [|discriminate]. destruct (find_revs (h_revs h) l) as [|rs1]; [discriminate|].
    intros [= <-] r X. apply elem_of_cons in X as [->|X]; [cbn; rewrite (se_revs h S s r0 E0); exact E0|exact (IH rs1 eq_refl r X)]. }
  intros o X. cbn in X. apply elem_of_app in X as [X|X].
  - destruct p as [p|]; [|inversion X]. apply elem_of_list_singleton in X as ->. unfold find_proof_dlg in Ep. destruct (sd_proof x) as [s|]; [|discriminate]. destruct (h_dlgs h !! s) as [q|] eqn:Q; [|discriminate].
    injection Ep as ->. cbn. rewrite (se_dlgs h S s p Q). exact Q.
  - apply elem_of_list_fmap in X as (r & -> & Hin). exact (Hr _ _ Er r Hin).
Qed.
Lemma resolve_rev_parents (h : client) x r : settled h -> resolve_rev h x = Datatypes.inr r -> (forall o, o ∈ parents (MR r) -> has_op h o) /\ r_sig r = sr_sig x.
Proof.
  intros S R. unfold resolve_rev in R. destruct (h_dlgs h !! sr_revoke x) as [t|] eqn:Et; [|discriminate]. destruct (find_proof_dlg (h_dlgs h) (sr_proof x)) as [|p] eqn:Ep; [discriminate|]. injection R as <-. split; [|reflexivity].
  intros o X. cbn in X. apply elem_of_cons in X as [->|X]; [cbn; rewrite (se_dlgs h S _ _ Et); exact Et|]. destruct p as [p|]; [|inversion X]. apply elem_of_list_singleton in X as ->.
  unfold find_proof_dlg in Ep. destruct (sr_proof x) as [s|]; [|discriminate]. destruct (h_dlgs h !! s) as [q|] eqn:Q; [|discriminate]. injection Ep as ->. cbn. rewrite (se_dlgs h S s p Q). exact Q.
Qed.
Lemma took_dlg h i g g' d : settled h -> has_group h i g -> P (MD d) -> d_subject d = i -> (forall o, o ∈ parents (MD d) -> has_op h o) ->
  receive_delegation order (h_env h) g d = GOk g' -> settled (put_made (put_at h i g') [d] []).
Proof.
  intros S G Pd Es Hp R. destruct (group_sound h i g S G) as (ops & Ei & H & So & Pi & Hops). destruct (accepted_delegation _ _ _ _ _ R) as (_ & _ & _ & B).
  eapply (settle_put h i g g' [d] [] ops (MD d :: ops)); [exact S|exact G|exact Hops| | | | |].
  - destruct (rebuild_keeps _ _ _ B) as [-> _]. exact Ei.
  - eapply h_delegation; [exact H| |exact R]. intros o X. apply Hops. split; [apply Hp, X|]. rewrite (proj2 Pr (MD d) o Pd X). exact Es.
  - intros o. rewrite elem_of_cons. cbn. rewrite elem_of_list_singleton, elem_of_nil. tauto.
  - intros e Q. apply elem_of_list_singleton in Q as ->. exact Pd.
  - intros r Q. inversion Q.
Qed.
Lemma took_rev h i g g' r : settled h -> has_group h i g -> P (MR r) -> r_subject r = i -> (forall o, o ∈ parents (MR r) -> has_op h o) ->
  receive_revocation order (h_env h) g r = GOk g' -> settled (put_made (put_at h i g') [] [r]).
Proof.
  intros S G Pd Es Hp R. destruct (group_sound h i g S G) as (ops & Ei & H & So & Pi & Hops). destruct (accepted_revocation _ _ _ _ _ R) as (_ & _ & B).
  eapply (settle_put h i g g' [] [r] ops (MR r :: ops)); [exact S|exact G|exact Hops| | | | |].
  - destruct (rebuild_keeps _ _ _ B) as [-> _]. exact Ei.
  - eapply h_revocation; [exact H| |exact R]. intros o X. apply Hops. split; [apply Hp, X|]. rewrite (proj2 Pr (MR r) o Pd X). exact Es.
  - intros o. rewrite elem_of_cons. cbn. rewrite elem_of_list_singleton, elem_of_nil. tauto.
  - intros e Q. inversion Q.
  - intros e Q. apply elem_of_list_singleton in Q as ->. exact Pd.
Qed.
Lemma receive_dlg_settled h x h' r : settled h ->
  (forall d, resolve_dlg h x = Datatypes.inr d -> P (MD d) /\ d_subject d <> ks_public (h_keys h) /\ ks_indies (h_keys h) !! d_subject d = None) ->
  receive_dlg order doc_content h x = (h', r) -> settled h'.
Proof.
  intros S Pm Q. unfold receive_dlg in Q. destruct (bool_decide _); [injection Q as <- <-; exact S|]. destruct (negb _); [injection Q as <- <-; exact S|].
  destruct (resolve_dlg h x) as [er|d] eqn:R; [injection Q as <- <-; exact S|]. destruct (Pm d eq_refl) as (Pd & Np & Ni). destruct (resolve_dlg_parents h x d S R) as (Hp & Esig & Econt). cbv zeta in Q.
  destruct (h_groups h !! d_subject d) as [g|] eqn:G.
  - destruct (delegation_hangs _ _ _ _); [injection Q as <- <-; exact S|]. destruct (receive_delegation order (h_env h) g d) as [g'|e] eqn:A; [|injection Q as <- <-; exact S]. injection Q as <- <-.
    pose proof (took_dlg h (d_subject d) g g' d S (or_introl G) Pd eq_refl Hp A) as X. rewrite (put_at_group h _ g g' G) in X. exact X.
  - destruct (h_docs h !! d_subject d) as [g|] eqn:D.
    + destruct (delegation_hangs _ _ _ _); [injection Q as <- <-; exact S|]. destruct (receive_delegation order (h_env h) g d) as [g'|e] eqn:A; [|injection Q as <- <-; exact S]. injection Q as <- <-.
      pose proof (took_dlg h (d_subject d) g g' d S (or_intror D) Pd eq_refl Hp A) as X. rewrite (put_at_doc h _ g' G) in X. exact X.
    + rewrite Ni in Q. destruct (new_group order d) as [g|] eqn:Eg; [|injection Q as <- <-; exact S].
      assert (NoG : forall o, o ∈ parents (MD d) -> False).
      { intros o X. destruct (se_known h S o (Hp o X)) as (f & [F|F]); rewrite (proj2 Pr (MD d) o Pd X) in F; cbn [op_subject] in F; congruence. }
      assert (Ep : d_proof d = None). { destruct (d_proof d) as [p|] eqn:E; [|reflexivity]. exfalso. apply (NoG (MD p)). cbn. rewrite E. left. }
      assert (Ea : d_after d = []). { destruct (d_after d) as [|a l] eqn:E; [reflexivity|]. exfalso. apply (NoG (MR a)). cbn. rewrite E. apply elem_of_app. right. left. }
      assert (Ei : d_issuer d = d_subject d). { destruct d as [s j t c pr af co]. cbn in Ep. subst pr. reflexivity. }
      assert (Gi : gr_id g = d_subject d) by (destruct (rebuild_keeps _ _ _ Eg) as [-> _]; exact Ei).
      assert (Hh : history order [MD d] g) by (apply h_new; auto).
      assert (None1 : forall o, has_op h o -> op_subject o <> d_subject d). { intros o Ho Eo. destruct (se_known h S o Ho) as (f & [F|F]); rewrite Eo in F; congruence. }
      destruct (put_dlg_spec h d (settled_stored h S) (se_in h S) Pd) as [St Ho]. rewrite Gi in Q.
      assert (Fin : forall h2 : client, h_dlgs h2 = h_dlgs (put_dlg h d) -> h_revs h2 = h_revs (put_dlg h d) -> ks_public (h_keys h2) = ks_public (h_keys h) ->
        (forall j, j <> d_subject d -> h_groups h2 !! j = h_groups h !! j /\ h_docs h2 !! j = h_docs h !! j) ->
        (h_groups h2 !! d_subject d = Some g /\ h_docs h2 !! d_subject d = None) \/ (h_groups h2 !! d_subject d = None /\ h_docs h2 !! d_subject d = Some g) -> settled h2).
      { intros h2 E1 E2 E3 Lj Li. assert (Ho2 : forall o, has_op h2 o <-> has_op h o \/ o = MD d) by (intros o; rewrite <- Ho; destruct o; unfold has_op; rewrite ?E1, ?E2; reflexivity).
        eapply (settle h h2 (d_subject d) g (fun o => o = MD d) [MD d]); [exact S| |exact Ho2|intros o ->; exact Pd|exact Lj|exact Li|exact Gi|exact Hh| |exact Np|exact E3].
        - destruct St as [St1 St2]. split; [rewrite E1; exact St1|rewrite E2; exact St2].
        - intros o. rewrite elem_of_list_singleton. split; [auto|]. intros [[X Eo]|X]; [exfalso; exact (None1 o X Eo)|exact X]. }
      injection Q as <- <-. destruct (doc_content _ _); apply Fin; try reflexivity.
      * intros j Nj. cbn. rewrite lookup_insert_ne by congruence. auto.
      * right. cbn. rewrite lookup_insert. auto.
      * intros j Nj. cbn. rewrite lookup_insert_ne by congruence. auto.
      * left. cbn. rewrite lookup_insert. auto.
Qed.
Lemma receive_rev_settled h x h' r : settled h -> (forall o, resolve_rev h x = Datatypes.inr o -> P (MR o)) -> receive_rev order h x = (h', r) -> settled h'.
Proof.
  intros S Pm Q. unfold receive_rev in Q. destruct (bool_decide _); [injection Q as <- <-; exact S|]. destruct (negb _); [injection Q as <- <-; exact S|].
  destruct (resolve_rev h x) as [er|o] eqn:R; [injection Q as <- <-; exact S|]. pose proof (Pm o eq_refl) as Pd. destruct (resolve_rev_parents h x o S R) as (Hp & Esig). cbv zeta in Q.
  destruct (se_known h S (MD (r_revoke o)) (Hp _ ltac:(left))) as (g0 & G0). cbn [op_subject] in G0. change (d_subject (r_revoke o)) with (r_subject o) in G0.
  destruct (h_groups h !! r_subject o) as [g|] eqn:G.
  - destruct (revocation_hangs _ _ _ _); [injection Q as <- <-; exact S|]. destruct (receive_revocation order (h_env h) g o) as [g'|e] eqn:A; [|injection Q as <- <-; exact S]. injection Q as <- <-.
    pose proof (took_rev h (r_subject o) g g' o S (or_introl G) Pd eq_refl Hp A) as X. rewrite (put_at_group h _ g g' G) in X. exact X.
  - destruct (h_docs h !! r_subject o) as [g|] eqn:D; [|exfalso; destruct G0; congruence].
    destruct (revocation_hangs _ _ _ _); [injection Q as <- <-; exact S|]. destruct (receive_revocation order (h_env h) g o) as [g'|e] eqn:A; [|injection Q as <- <-; exact S]. injection Q as <- <-.
    pose proof (took_rev h (r_subject o) g g' o S (or_intror D) Pd eq_refl Hp A) as X. rewrite (put_at_doc h _ g' G) in X. exact X.
Qed.

Lemma prekey_public k o k' e : PrekeyModel.receive_prekey_op k o = (k', e) -> ks_public k' = ks_public k.
Proof.
  unfold PrekeyModel.receive_prekey_op. repeat first [case_match | intros [= <- <-]; reflexivity]; intros Q; injection Q as <- <-; reflexivity.
Qed.

Theorem mixed_settled h : mixed h -> settled h.
Proof.
  induction 1 as [h E1 E2 E3 E4|h i ps ct h' r _ S N Np Ne ND Pp Q|h i ps ct sk h0 hs hu rng h' r _ S N Np Ne ND Pp Q|h i who can ct s hs h' r _ S Pm Q|h i t rt ct sigs hs h' r _ S Pm Q|
    h j sk x rng h' r _ S Q|h j rf ct pr sk x rng h' r _ S Q|h j e h' r _ S Q|h x h' r _ S Pm Q|h l _ S|h mk sk h' o _ S Q|h o _ S|h l _ S].
  - assert (No : forall o, ~ has_op h o) by (intros [d|r]; unfold has_op; rewrite ?E3, ?E4, lookup_empty; discriminate).
    assert (Ng : forall i g, ~ has_group h i g) by (intros i g; unfold has_group; rewrite E1, E2, !lookup_empty; intros [|]; discriminate). split.
    + rewrite E3. intros s d X. rewrite lookup_empty in X. discriminate.
    + rewrite E4. intros s d X. rewrite lookup_empty in X. discriminate.
    + intros o X. destruct (No o X).
    + intros i g G. destruct (Ng i g G).
    + intros o X. destruct (No o X).
    + rewrite E1. intros i [? X]. rewrite lookup_empty in X. discriminate.
    + apply env_none_at. rewrite E1, E2, !lookup_empty. auto.
  - unfold hive_generate_group in Q. destruct (generate_group order i ps ct) as [g|] eqn:E; [|injection Q as <- <-; exact S]. injection Q as <- <-. eapply new_group_settled; eauto.
  - unfold hive_generate_doc in Q. destruct (generate_group order i ps ct) as [g|] eqn:E; [|injection Q as <- <-; exact S]. destruct (prekey_individuals _ _ _ _ _) as [s|]; [|injection Q as <- <-; exact S]. cbv zeta in Q.
    destruct (cgka_from_init _ _ _) as [c| | |]; [|injection Q as <- <-; exact S..]. destruct (add_keys _ _ _ _ _) as [c1 [ops| | |]]; [|injection Q as <- <-; exact S..].
    destruct (cgka_update _ _ _ _ _ _) as [c2 [[[x op] y]| | |]]; [|injection Q as <- <-; exact S..]. injection Q as <- <-. eapply same_settled; [apply cgka_same|]. eapply new_doc_settled; eauto.
  - eapply add_settled; eauto.
  - eapply revoke_settled; eauto.
  - unfold hive_update in Q. destruct (cgka_of h j) as [c|]; [|injection Q as <- <-; exact S]. destruct (cgka_update _ _ _ _ _ _) as [c1 y]. injection Q as <- <-. exact (same_settled _ _ (cgka_same _ _ _) S).
  - unfold hive_encrypt in Q. destruct (cgka_of h j) as [c|]; [|injection Q as <- <-; exact S]. destruct (new_app_secret_for _ _ _ _ _ _ _ _ _) as [c1 y]. injection Q as <- <-. exact (same_settled _ _ (cgka_same _ _ _) S).
  - unfold hive_decrypt in Q. destruct (cgka_of h j) as [c|]; [|injection Q as <- <-; exact S]. destruct (decryption_key_for _ _ _) as [c1 [k| | |]]; injection Q as <- <-; exact (same_settled _ _ (cgka_same _ _ _) S).
  - destruct x as [o|o|d|d]; cbn [receive_event] in Q.
    + unfold receive_key_event in Q. destruct (PrekeyModel.receive_prekey_op (h_keys h) o) as [k e] eqn:K. injection Q as <- <-. apply prekey_public in K as Ep.
      eapply same_settled; [|exact S]. repeat split. exact Ep.
    + unfold receive_cgka in Q. destruct (negb _); [injection Q as <- <-; exact S|]. destruct (h_docs h !! do_doc o); [|injection Q as <- <-; exact S]. destruct (doc_receive _ _ _ _ _) as [c ok]. injection Q as <- <-.
      exact (same_settled _ _ (cg_same _ _) S).
    + eapply receive_dlg_settled; [exact S| |exact Q]. intros y Y. apply (Pm (MD y)). exists y. auto.
    + eapply receive_rev_settled; [exact S| |exact Q]. intros y Y. apply (Pm (MR y)). exists y. auto.
  - eapply same_settled; [|exact S]. repeat split.
  - unfold make_prekey in Q. destruct (ks_indies (h_keys h) !! me h) as [x|]; [|discriminate]. destruct (mk _ _) as [a y]. apply (inj Some) in Q. injection Q as <- <-. eapply same_settled; [|exact S]. repeat split.
  - eapply same_settled; [|exact S]. repeat split. unfold receive_contact_card. destruct (ks_indies (h_keys h) !! ko_issuer o) as [x|]; [|reflexivity]. destruct (receive_key x o). reflexivity.
  - exact (same_settled _ _ (cg_same _ _) S).
Qed.
Lemma settled_tidy h : settled h -> tidy order P h.
Proof.
  intros S. split; [|split; [apply (se_once h S)|apply (se_public h S)]]. intros i g G. destruct (group_sound h i g S G) as (ops & Ei & H & _ & Pi & _). eauto.
Qed.
End settle.
