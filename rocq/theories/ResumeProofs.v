(** Clients that are the same up to active revocations act alike. *)
From Coq Require Import Arith Lia.
From stdpp Require Import base list gmap relations.
From Verif Require Import ResModel KeysModel TreeModel OpsModel CgkaModel.
From Verif Require Import AccessModel GroupModel CgkaSpec GroupSpec PrekeyModel HiveModel HiveSpec SyncModel DocModel.
From Verif Require Import ArchiveModel ArchiveSpec ArchiveProofs TransactModel ArriveModel SettleSpec RememberModel RememberSpec RestoreProofs.

Section resume.
Context (order : gset nat -> list nat) (horder : gset digest -> list digest) (rorder : gset (member_id * nat) -> list (member_id * nat)).

(** ** Groups *)
Definition twin (g g' : group) : Prop := forget_group g = forget_group g'.
Lemma twin_parts g g' : twin g g' -> gr_id g = gr_id g' /\ gr_dheads g = gr_dheads g' /\ gr_rheads g = gr_rheads g' /\ gr_members g = gr_members g'.
Proof. unfold twin, forget_group. intros [=]. auto. Qed.
Lemma twin_dlg e g g' d : twin g g' -> receive_delegation order e g d = receive_delegation order e g' d.
Proof. unfold twin. intros T. rewrite <- (forget_receive_delegation order e g), T. apply forget_receive_delegation. Qed.
Lemma twin_rev e g g' r : twin g g' -> receive_revocation order e g r = receive_revocation order e g' r.
Proof. unfold twin. intros T. rewrite <- (forget_receive_revocation order e g), T. apply forget_receive_revocation. Qed.
Lemma twin_hangs e g g' d : twin g g' -> delegation_hangs order e g d = delegation_hangs order e g' d.
Proof. unfold twin. intros T. rewrite <- (forget_delegation_hangs order e g), T. apply forget_delegation_hangs. Qed.
Lemma twin_hangs' e g g' d : twin g g' -> revocation_hangs order e g d = revocation_hangs order e g' d.
Proof. unfold twin. intros T. rewrite <- (forget_revocation_hangs order e g), T. apply forget_revocation_hangs. Qed.
Lemma twin_add e g g' who can me content s : twin g g' -> add_member order e g who can me content s = add_member order e g' who can me content s.
Proof.
  intros T. destruct (twin_parts g g' T) as (Ei & _ & Er & Em). unfold add_member. rewrite Ei, Er, Em.
  destruct (if gr_id g' =? me then _ else _); [|reflexivity]. rewrite (twin_dlg e g g' _ T). reflexivity.
Qed.
Definition twins {A} (x y : gres (group * A)) : Prop :=
  match x, y with GOk (g, a), GOk (g', a') => twin g g' /\ a = a' | GErr e, GErr e' => e = e' | _, _ => False end.
Definition twins3 {A B} (x y : gres (group * A * B)) : Prop :=
  match x, y with GOk (g, a, b), GOk (g', a', b') => twin g g' /\ a = a' /\ b = b' | GErr e, GErr e' => e = e' | _, _ => False end.
Lemma twins3_refl {A B} (x : gres (group * A * B)) : twins3 x x.
Proof. destruct x as [[[? ?] ?]|]; cbn; [split; [reflexivity|auto]|reflexivity]. Qed.
Lemma twin_one e g g' me d p content sigs : twin g g' -> revoke_one order e g me d p content sigs = revoke_one order e g' me d p content sigs.
Proof. intros T. unfold revoke_one. destruct sigs; [reflexivity|]. rewrite (twin_rev e g g' _ T). reflexivity. Qed.
Lemma twin_admin e me target d content mine : forall g g' sigs, twin g g' -> twins3 (revoke_as_admin order e g me target d mine content sigs) (revoke_as_admin order e g' me target d mine content sigs).
Proof.
  induction mine as [|m mine IH]; intros g g' sigs T; cbn [revoke_as_admin]; [cbn; auto|]. destruct (_ || _); [apply IH, T|]. rewrite (twin_one e g g' me d (Some m) content sigs T). apply twins3_refl.
Qed.
Lemma twin_delegation e g g' me target d content sigs : twin g g' -> twins3 (revoke_delegation order e g me target d content sigs) (revoke_delegation order e g' me target d content sigs).
Proof.
  intros T. unfold revoke_delegation. destruct (twin_parts g g' T) as (_ & _ & _ & Em). rewrite Em. pose proof (twin_admin e me target d content (default [] (gr_members g' !! me)) g g' sigs T) as X.
  destruct (revoke_as_admin order e g _ _ _ _ _ _) as [[[a rs] s]|], (revoke_as_admin order e g' _ _ _ _ _ _) as [[[b rs'] s']|]; cbn in X; try contradiction; [|exact X].
  destruct X as (Tab & -> & ->). destruct (twin_parts a b Tab) as (_ & _ & _ & Eab). destruct (if d_issuer d =? me then _ else _) as [p|].
  - rewrite (twin_one e a b me d (Some p) content s' Tab). apply twins3_refl.
  - destruct rs' as [|r rs']; [|cbn; auto]. rewrite Eab. destruct (find_revoker _ _ _ _ _ _) as [[p|]|]; [|reflexivity|reflexivity].
    rewrite (twin_one e a b me d (Some p) content s' Tab). apply twins3_refl.
Qed.
Lemma twin_delegations e me target content l : forall g g' sigs, twin g g' -> twins3 (revoke_delegations order e g me target l content sigs) (revoke_delegations order e g' me target l content sigs).
Proof.
  induction l as [|d l IH]; intros g g' sigs T; cbn [revoke_delegations]; [cbn; auto|]. destruct (twin_parts g g' T) as (Ei & _). rewrite Ei. destruct (me =? gr_id g').
  - rewrite (twin_one e g g' me d None content sigs T). apply twins3_refl.
  - pose proof (twin_delegation e g g' me target d content sigs T) as X.
    destruct (revoke_delegation order e g _ _ _ _ _) as [[[a rs] s]|], (revoke_delegation order e g' _ _ _ _ _) as [[[b rs'] s']|]; cbn in X; try contradiction; [|exact X].
    destruct X as (Tab & -> & ->). pose proof (IH a b s' Tab) as X.
    destruct (revoke_delegations order e a _ _ _ _ _) as [[[a1 q] u]|], (revoke_delegations order e b _ _ _ _ _) as [[[b1 q'] u']|]; cbn in X; try contradiction; [|exact X].
    destruct X as (Y & -> & ->). cbn. auto.
Qed.
Lemma twin_redelegate e me target content l : forall g g' sigs, twin g g' -> twins (redelegate order e g me target l content sigs) (redelegate order e g' me target l content sigs).
Proof.
  induction l as [|d l IH]; intros g g' sigs T; cbn [redelegate]; [cbn; auto|]. destruct (_ && _); [|apply IH, T]. destruct sigs as [|s sigs]; [reflexivity|].
  rewrite (twin_add e g g' _ _ _ _ _ T). destruct (add_member _ _ _ _ _ _ _ _) as [[a d']|]; [|reflexivity].
  destruct (redelegate order e a _ _ _ _ _) as [[a1 ds]|]; [cbn; split; [reflexivity|reflexivity]|reflexivity].
Qed.
Lemma twin_revoke e g g' target retain me content sigs : twin g g' -> twins3 (revoke_member order e g target retain me content sigs) (revoke_member order e g' target retain me content sigs).
Proof.
  intros T. unfold revoke_member. destruct (twin_parts g g' T) as (Ei & Ed & Er & Em). rewrite Em, Ei, Ed, Er. destruct (default [] (gr_members g' !! target)) as [|d ds]; [cbn; split; [reflexivity|auto]|].
  pose proof (twin_delegations e me target content (d :: ds) g g' sigs T) as X.
  destruct (revoke_delegations order e g _ _ _ _ _) as [[[a rs] s]|], (revoke_delegations order e g' _ _ _ _ _) as [[[b rs'] s']|]; cbn in X; try contradiction; [|exact X].
  destruct X as (Tab & -> & ->). destruct retain; [|cbn; auto]. pose proof (twin_redelegate e me target content (concat (omap (gr_members g' !!.) (order (dom (gr_members g'))))) a b s' Tab) as X.
  destruct (redelegate order e a _ _ _ _ _) as [[a1 q]|], (redelegate order e b _ _ _ _ _) as [[b1 q']|]; cbn in X; try contradiction; [|exact X]. destruct X as (Y & ->). cbn. auto.
Qed.

(** ** Clients *)
Lemma alike_refl (h : client) : alike h h.
Proof. reflexivity. Qed.
Lemma alike_sym (h h' : client) : alike h h' -> alike h' h.
Proof. unfold alike. auto. Qed.
Lemma alike_parts (h h' : client) : alike h h' -> h_keys h = h_keys h' /\ h_dlgs h = h_dlgs h' /\ h_revs h = h_revs h' /\ h_cg h = h_cg h' /\ h_pending h = h_pending h' /\ h_env h = h_env h'.
Proof.
  intros A. assert (E : h_env h = h_env h') by (rewrite <- (forget_env h), <- (forget_env h'); unfold alike in A; rewrite A; reflexivity). unfold alike, forget in A. injection A. auto 10.
Qed.
Definition twin_at (m m' : gmap ident group) : Prop := forall i, match m !! i, m' !! i with Some g, Some g' => twin g g' | None, None => True | _, _ => False end.
Lemma twin_at_of m m' : forget_group <$> m = forget_group <$> m' -> twin_at m m'.
Proof.
  intros E i. assert (X : (forget_group <$> m) !! i = (forget_group <$> m') !! i) by (rewrite E; reflexivity). rewrite !lookup_fmap in X.
  destruct (m !! i), (m' !! i); cbn in X; try discriminate; [injection X; unfold twin, forget_group; intros; congruence|exact I].
Qed.
Lemma alike_groups (h h' : client) : alike h h' -> twin_at (h_groups h) (h_groups h') /\ twin_at (h_docs h) (h_docs h') /\ dom (h_docs h) = dom (h_docs h').
Proof.
  intros A. unfold alike, forget in A. injection A. intros _ _ _ _ Ed Eg _. split; [apply twin_at_of, Eg|]. split; [apply twin_at_of, Ed|].
  rewrite <- (dom_fmap_L forget_group (h_docs h)), Ed. apply dom_fmap_L.
Qed.
Lemma alike_cgka (h h' : client) i c : alike h h' -> alike (put_cgka h i c) (put_cgka h' i c).
Proof. unfold alike, forget, put_cgka, put_cg. cbn. intros [= E1 E2 E3 E4 E5 E6 E7]. rewrite E1, E2, E3, E4, E5, E6, E7. reflexivity. Qed.
Lemma alike_put_group (h h' : client) i g g' : alike h h' -> twin g g' -> alike (put_group h i g) (put_group h' i g').
Proof. unfold alike, twin. intros A T. rewrite !forget_put_group, A, T. reflexivity. Qed.
Lemma alike_put_doc (h h' : client) i g g' : alike h h' -> twin g g' -> alike (put_doc h i g) (put_doc h' i g').
Proof. unfold alike, twin. intros A T. rewrite !forget_put_doc, A, T. reflexivity. Qed.
Lemma alike_made (h h' : client) ds rs : alike h h' -> alike (put_made h ds rs) (put_made h' ds rs).
Proof.
  intros A. unfold put_made. assert (B : alike (foldl put_dlg h ds) (foldl put_dlg h' ds)).
  { revert h h' A. induction ds as [|d ds IH]; intros h h' A; [exact A|]. cbn. apply IH. unfold alike in *. rewrite !forget_put_dlg, A. reflexivity. }
  revert B. generalize (foldl put_dlg h ds) (foldl put_dlg h' ds). induction rs as [|r rs IH]; intros a b B; [exact B|]. cbn. apply IH. unfold alike in *. rewrite !forget_put_rev, B. reflexivity.
Qed.
Lemma alike_keys (h h' : client) k : alike h h' -> alike (put_keys h k) (put_keys h' k).
Proof. unfold alike, forget, put_keys. cbn. intros [= E1 E2 E3 E4 E5 E6 E7]. rewrite E2, E3, E4, E5, E6, E7. reflexivity. Qed.
Lemma alike_cg (h h' : client) k : alike h h' -> alike (put_cg h k) (put_cg h' k).
Proof. unfold alike, forget, put_cg. cbn. intros [= E1 E2 E3 E4 E5 E6 E7]. rewrite E1, E2, E3, E4, E5, E7. reflexivity. Qed.
Lemma alike_me (h h' : client) : alike h h' -> me h = me h'.
Proof. intros A. unfold me. rewrite (proj1 (alike_parts h h' A)). reflexivity. Qed.

(** The same result, and clients that are alike. *)
Definition same {A} (x y : client * A) : Prop := alike x.1 y.1 /\ x.2 = y.2.
Lemma same_intro {A} (h h' : client) (r : A) : alike h h' -> same (h, r) (h', r).
Proof. split; [assumption|reflexivity]. Qed.
Lemma signed_alike (h h' : client) i : alike h h' -> signed_by h i = signed_by h' i.
Proof. intros A. unfold signed_by. rewrite (alike_me h h' A). reflexivity. Qed.
Lemma cgka_alike (h h' : client) i : alike h h' -> cgka_of h i = cgka_of h' i.
Proof. intros A. unfold cgka_of. destruct (alike_parts h h' A) as (_ & _ & _ & E & _). rewrite E. reflexivity. Qed.

Section with_pick.
Context (pick : ident -> ident -> share_key).
Lemma keys_alike (h h' : client) i l hs : alike h h' -> same (doc_add_keys horder rorder h i l hs) (doc_add_keys horder rorder h' i l hs).
Proof.
  intros A. unfold doc_add_keys. destruct l as [|x l]; [apply same_intro, A|]. rewrite (cgka_alike h h' i A), (signed_alike h h' i A). destruct (cgka_of h' i) as [c|]; [|apply same_intro, A].
  destruct (add_keys _ _ _ _ _) as [c' r]. apply same_intro, alike_cgka, A.
Qed.
Lemma prekeys_alike (h h' : client) a doc : alike h h' -> pick_prekeys order pick h a doc = pick_prekeys order pick h' a doc.
Proof. intros A. unfold pick_prekeys. destruct (alike_parts h h' A) as (_ & _ & _ & _ & _ & E). rewrite E. reflexivity. Qed.
Lemma reaches_alike (h h' : client) a g g' : alike h h' -> twin g g' -> reaches order h a g = reaches order h' a g'.
Proof.
  intros A T. destruct (alike_parts h h' A) as (_ & _ & _ & _ & _ & E), (twin_parts g g' T) as (Ei & _ & _ & Em). unfold reaches, caps_of. rewrite E, Ei, Em. reflexivity.
Qed.
Lemma add_docs_alike gid who hs docs : forall h h' : client, alike h h' ->
  same (add_to_docs order horder rorder pick h gid who docs hs) (add_to_docs order horder rorder pick h' gid who docs hs).
Proof.
  induction docs as [|j docs IH]; intros h h' A; cbn [add_to_docs]; [apply same_intro, A|]. destruct (alike_groups h h' A) as (_ & D & _). specialize (D j).
  destruct (h_docs h !! j) as [g|], (h_docs h' !! j) as [g'|]; try contradiction; [|apply IH, A]. rewrite (reaches_alike h h' gid g g' A D). destruct (negb _); [apply IH, A|].
  rewrite (prekeys_alike h h' who j A). destruct (pick_prekeys _ _ _ _ _) as [l|]; [|apply same_intro, A]. pose proof (keys_alike h h' j l (hs j) A) as [X Y].
  destruct (doc_add_keys _ _ h _ _ _) as [a r], (doc_add_keys _ _ h' _ _ _) as [b r']. cbn in X, Y. subst r'. destruct r as [ops|e]; [|apply same_intro, X].
  pose proof (IH a b X) as [U V]. destruct (add_to_docs _ _ _ _ a _ _ _ _) as [a1 r], (add_to_docs _ _ _ _ b _ _ _ _) as [b1 r']. cbn in U, V. subst r'. destruct r; apply same_intro, U.
Qed.
Lemma loop_alike (h h' : client) : alike h h' -> any_loop order h = any_loop order h'.
Proof. intros A. unfold any_loop, loops. destruct (alike_parts h h' A) as (_ & _ & _ & _ & _ & E). rewrite E. reflexivity. Qed.
Lemma add_alike (h h' : client) i who can content s hs : alike h h' ->
  same (hive_add_member order horder rorder pick h i who can content s hs) (hive_add_member order horder rorder pick h' i who can content s hs).
Proof.
  intros A. unfold hive_add_member. rewrite (loop_alike h h' A). destruct (any_loop order h'); [apply same_intro, A|]. destruct (alike_groups h h' A) as (G & D & _). specialize (G i). specialize (D i).
  destruct (alike_parts h h' A) as (_ & _ & _ & _ & _ & E). rewrite E, (alike_me h h' A).
  destruct (h_groups h !! i) as [g|], (h_groups h' !! i) as [g'|]; try contradiction.
  - rewrite (twin_add (h_env h') g g' who can (me h') content s G). destruct (add_member _ _ _ _ _ _ _ _) as [[g1 d]|e]; [|apply same_intro, A]. cbv zeta. rewrite (twin_hangs (h_env h') g g' d G).
    assert (B : alike (put_made (put_group h i g1) [d] []) (put_made (put_group h' i g1) [d] [])) by (apply alike_made, alike_put_group; [exact A|reflexivity]).
    revert B. generalize (put_made (put_group h i g1) [d] []) (put_made (put_group h' i g1) [d] []). intros a b B. rewrite (loop_alike a b B). destruct (_ || _); [apply same_intro, B|].
    destruct (is_reader can); [|apply same_intro, B]. destruct (alike_groups a b B) as (_ & _ & Edom). rewrite Edom. pose proof (add_docs_alike i who hs (order (dom (h_docs b))) a b B) as [X Y].
    destruct (add_to_docs _ _ _ _ a _ _ _ _) as [a1 r], (add_to_docs _ _ _ _ b _ _ _ _) as [b1 r']. cbn in X, Y. subst r'. destruct r; apply same_intro, X.
  - destruct (h_docs h !! i) as [g|], (h_docs h' !! i) as [g'|]; try contradiction; [|apply same_intro, A].
    rewrite (twin_add (h_env h') g g' who can (me h') content s D). destruct (add_member _ _ _ _ _ _ _ _) as [[g1 d]|e]; [|apply same_intro, A]. cbv zeta. rewrite (twin_hangs (h_env h') g g' d D).
    assert (B : alike (put_made (put_doc h i g1) [d] []) (put_made (put_doc h' i g1) [d] [])) by (apply alike_made, alike_put_doc; [exact A|reflexivity]).
    revert B. generalize (put_made (put_doc h i g1) [d] []) (put_made (put_doc h' i g1) [d] []). intros a b B. rewrite (loop_alike a b B). destruct (_ || _); [apply same_intro, B|].
    destruct (is_reader can); [|apply same_intro, B]. rewrite (prekeys_alike a b who i B). destruct (pick_prekeys _ _ _ _ _) as [l|]; [|apply same_intro, B]. pose proof (keys_alike a b i l (hs i) B) as [X Y].
    destruct (doc_add_keys _ _ a _ _ _) as [a1 r], (doc_add_keys _ _ b _ _ _) as [b1 r']. cbn in X, Y. subst r'. destruct r; apply same_intro, X.
Qed.
Lemma group_alike (h h' : client) i parents content : alike h h' -> same (hive_generate_group order h i parents content) (hive_generate_group order h' i parents content).
Proof.
  intros A. unfold hive_generate_group. destruct (generate_group _ _ _ _) as [g|]; [|apply same_intro, A]. apply same_intro, alike_made. unfold new_plain_group.
  destruct (alike_parts h h' A) as (E & _). rewrite ?E. first [apply alike_put_group; [|reflexivity]; first [exact A|apply alike_keys, A]].
Qed.
Lemma doc_alike (h h' : client) i parents content sk h0 hs hu rng : alike h h' ->
  same (hive_generate_doc order horder rorder pick h i parents content sk h0 hs hu rng) (hive_generate_doc order horder rorder pick h' i parents content sk h0 hs hu rng).
Proof.
  intros A. unfold hive_generate_doc. destruct (alike_parts h h' A) as (E & _ & _ & _ & _ & E'). rewrite E, E'. destruct (generate_group _ _ _ _) as [g|]; [|apply same_intro, A].
  destruct (prekey_individuals _ _ _ _ _) as [s|]; [|apply same_intro, A]. destruct (cgka_from_init _ _ _) as [c| | |]; try apply same_intro, A. cbv zeta.
  destruct (add_keys _ _ _ _ _) as [c1 [ops| | |]]; try apply same_intro, A. destruct (cgka_update _ _ _ _ _ _) as [c2 [[[k op] z]| | |]]; try apply same_intro, A.
  assert (B : alike (put_made (new_document h i g) (map snd (map_to_list (gr_dheads g))) []) (put_made (new_document h' i g) (map snd (map_to_list (gr_dheads g))) [])).
  { apply alike_made. unfold new_document. rewrite ?E. apply alike_put_doc; [|reflexivity]. first [exact A|apply alike_keys, A]. }
  rewrite (signed_alike _ _ i B). apply same_intro, alike_cgka, B.
Qed.
End with_pick.

Lemma behind_alike (h h' : client) l : alike h h' -> behind order h l = behind order h' l.
Proof. intros A. destruct (alike_parts h h' A) as (_ & _ & _ & _ & _ & E). induction l as [|d l IH]; [reflexivity|]. cbn. rewrite IH, E. reflexivity. Qed.
Lemma hanging_alike e g g' rs ds : twin g g' -> revoking_hangs order e g rs ds = revoking_hangs order e g' rs ds.
Proof.
  intros T. unfold revoking_hangs. f_equal.
  - induction rs as [|r rs IH]; [reflexivity|]. cbn. rewrite IH, (twin_hangs' e g g' r T). reflexivity.
  - induction ds as [|d ds IH]; [reflexivity|]. cbn. rewrite IH, (twin_hangs e g g' d T). reflexivity.
Qed.
Lemma remove_docs_alike gid ids hs docs : forall h h' : client, alike h h' ->
  same (remove_from_docs order horder rorder h gid ids docs hs) (remove_from_docs order horder rorder h' gid ids docs hs).
Proof.
  induction docs as [|j docs IH]; intros h h' A; cbn [remove_from_docs]; [apply same_intro, A|]. destruct (alike_groups h h' A) as (_ & D & _). specialize (D j).
  destruct (h_docs h !! j) as [g|], (h_docs h' !! j) as [g'|]; try contradiction; [|apply IH, A]. destruct (alike_parts h h' A) as (_ & _ & _ & _ & _ & E), (twin_parts g g' D) as (Ei & _ & _ & Em).
  unfold caps_of. rewrite E, Ei, Em. destruct (transitive_members _ _ _ _) as [caps|]; [|apply same_intro, A]. destruct (bool_decide _); [|apply IH, A]. cbv zeta. rewrite (cgka_alike h h' j A), (signed_alike h h' j A).
  destruct (cgka_of h' j) as [c|]; [|apply IH, A]. destruct (try_remove_keys _ _ _ _ _) as [c1 [ops| | |]]; try (apply same_intro, alike_cgka, A).
  pose proof (IH _ _ (alike_cgka h h' j c1 A)) as [X Y].
  destruct (remove_from_docs _ _ _ (put_cgka h j c1) _ _ _ _) as [a1 r], (remove_from_docs _ _ _ (put_cgka h' j c1) _ _ _ _) as [b1 r']. cbn in X, Y. subst r'. destruct r; apply same_intro, X.
Qed.
Lemma revoke_alike (h h' : client) i target retain content sigs hs : alike h h' ->
  same (hive_revoke_member order horder rorder h i target retain content sigs hs) (hive_revoke_member order horder rorder h' i target retain content sigs hs).
Proof.
  intros A. unfold hive_revoke_member. rewrite (loop_alike h h' A). destruct (any_loop order h'); [apply same_intro, A|]. destruct (alike_groups h h' A) as (G & D & _). specialize (G i). specialize (D i).
  destruct (alike_parts h h' A) as (_ & _ & _ & _ & _ & E). rewrite E, (alike_me h h' A).
  destruct (h_groups h !! i) as [g|], (h_groups h' !! i) as [g'|]; try contradiction.
  - destruct (twin_parts g g' G) as (_ & _ & _ & Em). rewrite Em, (behind_alike h h' _ A). destruct (behind _ _ _) as [ids|]; [|apply same_intro, A].
    pose proof (twin_revoke (h_env h') g g' target retain (me h') content sigs G) as X.
    destruct (revoke_member _ _ g _ _ _ _ _) as [[[g1 rs] ds]|], (revoke_member _ _ g' _ _ _ _ _) as [[[g2 rs'] ds']|]; cbn in X; try contradiction; [|subst; apply same_intro, A].
    destruct X as (T & -> & ->). rewrite (hanging_alike _ g1 g2 rs' ds' T). destruct (revoking_hangs _ _ _ _ _); [apply same_intro, A|]. cbv zeta.
    assert (B : alike (put_made (put_group h i g1) ds' rs') (put_made (put_group h' i g2) ds' rs')) by (apply alike_made, alike_put_group; assumption).
    revert B. generalize (put_made (put_group h i g1) ds' rs') (put_made (put_group h' i g2) ds' rs'). intros a b B. destruct (bool_decide _); [apply same_intro, B|].
    destruct (alike_groups a b B) as (_ & _ & Edom). rewrite Edom. pose proof (remove_docs_alike i ids hs (order (dom (h_docs b))) a b B) as [X Y].
    destruct (remove_from_docs _ _ _ a _ _ _ _) as [a1 r], (remove_from_docs _ _ _ b _ _ _ _) as [b1 r']. cbn in X, Y. subst r'. destruct r; apply same_intro, X.
  - destruct (h_docs h !! i) as [g|], (h_docs h' !! i) as [g'|]; try contradiction; [|apply same_intro, A].
    destruct (twin_parts g g' D) as (_ & _ & _ & Em). rewrite Em, (behind_alike h h' _ A). destruct (behind _ _ _) as [ids|]; [|apply same_intro, A].
    pose proof (twin_revoke (h_env h') g g' target retain (me h') content sigs D) as X.
    destruct (revoke_member _ _ g _ _ _ _ _) as [[[g1 rs] ds]|], (revoke_member _ _ g' _ _ _ _ _) as [[[g2 rs'] ds']|]; cbn in X; try contradiction; [|subst; apply same_intro, A].
    destruct X as (T & -> & ->). rewrite (hanging_alike _ g1 g2 rs' ds' T). destruct (revoking_hangs _ _ _ _ _); [apply same_intro, A|]. cbv zeta.
    assert (B : alike (put_made (put_doc h i g1) ds' rs') (put_made (put_doc h' i g2) ds' rs')) by (apply alike_made, alike_put_doc; assumption).
    revert B. generalize (put_made (put_doc h i g1) ds' rs') (put_made (put_doc h' i g2) ds' rs'). intros a b B. destruct (alike_parts a b B) as (_ & _ & _ & _ & _ & Eab). rewrite Eab.
    destruct (twin_parts g1 g2 T) as (_ & _ & _ & Em'). rewrite Em'. destruct (group_individual_ids _ _ _) as [still|]; [|apply same_intro, B]. destruct (order _) as [|x gone]; [apply same_intro, B|].
    rewrite (cgka_alike a b i B), (signed_alike a b i B). destruct (cgka_of b i) as [c|]; [|apply same_intro, B]. destruct (remove_keys _ _ _ _ _) as [c1 [ops| | |]]; apply same_intro, alike_cgka, B.
Qed.
Lemma update_alike (h h' : client) i sk x rng : alike h h' -> same (hive_update horder rorder h i sk x rng) (hive_update horder rorder h' i sk x rng).
Proof.
  intros A. unfold hive_update. rewrite (cgka_alike h h' i A), (signed_alike h h' i A). destruct (cgka_of h' i) as [c|]; [|apply same_intro, A]. destruct (cgka_update _ _ _ _ _ _) as [c1 r]. apply same_intro, alike_cgka, A.
Qed.
Lemma encrypt_alike (h h' : client) i ref content preds sk x rng : alike h h' -> same (hive_encrypt horder rorder h i ref content preds sk x rng) (hive_encrypt horder rorder h' i ref content preds sk x rng).
Proof.
  intros A. unfold hive_encrypt. rewrite (cgka_alike h h' i A), (signed_alike h h' i A). destruct (cgka_of h' i) as [c|]; [|apply same_intro, A]. destruct (new_app_secret_for _ _ _ _ _ _ _ _ _) as [c1 r]. apply same_intro, alike_cgka, A.
Qed.
Lemma decrypt_alike (h h' : client) i e : alike h h' -> same (hive_decrypt rorder h i e) (hive_decrypt rorder h' i e).
Proof.
  intros A. unfold hive_decrypt. rewrite (cgka_alike h h' i A). destruct (cgka_of h' i) as [c|]; [|apply same_intro, A]. destruct (decryption_key_for _ _ _) as [c1 [k| | |]]; apply same_intro, alike_cgka, A.
Qed.
Lemma prekey_alike (h h' : client) make sk : alike h h' ->
  match make_prekey h make sk, make_prekey h' make sk with Some (a, o), Some (b, o') => alike a b /\ o = o' | None, None => True | _, _ => False end.
Proof.
  intros A. unfold make_prekey. destruct (alike_parts h h' A) as (E & _ & _ & Ec & _). rewrite (alike_me h h' A), E, Ec. destruct (ks_indies (h_keys h') !! me h') as [x|]; [|exact I].
  destruct (make _ _) as [a o]. split; [|reflexivity]. apply alike_cg, alike_keys, A.
Qed.
End resume.
