(** No call and no event makes a client forget what it has. *)
From Coq Require Import Arith Lia.
From stdpp Require Import base list gmap relations.
From Verif Require Import ResModel KeysModel TreeModel OpsModel CgkaModel CgkaSpec.
From Verif Require Import AccessModel GroupModel CgkaSpec GroupSpec GroupHistory GroupPropsProofs PrekeyModel HiveModel HiveSpec SyncModel DocModel DocSpec DocProofs TransactModel ArriveModel SettleSpec SettleProofs RememberModel RememberSpec.

Section remember.
Context (order : gset nat -> list nat) (horder : gset digest -> list digest) (rorder : gset (member_id * nat) -> list (member_id * nat)).
Context (pick : client -> ident -> ident -> share_key) (doc_content : nat -> ident -> bool) (P : mop -> Prop).
Context (O : some_order order) (Pr : proper P).
Notation mixed := (mixed order horder rorder pick doc_content P).
Notation move := (move order horder rorder pick doc_content P).
Notation settled := (settled order P).

Lemma remembers_refl h : remembers h h.
Proof. split; auto. Qed.
Lemma remembers_trans h h1 h2 : remembers h h1 -> remembers h1 h2 -> remembers h h2.
Proof. intros [A B C D E F G] [A' B' C' D' E' F' G']. split; auto. congruence. Qed.
Lemma some_insert {A} (m : gmap nat A) i j x : is_Some (m !! j) -> is_Some (<[i := x]> m !! j).
Proof. intros M. destruct (decide (i = j)) as [->|N]; [rewrite lookup_insert; eauto|rewrite lookup_insert_ne by exact N; exact M]. Qed.

Ltac frame := split; first [reflexivity|intros [d|r] X; exact X|intros; assumption|intros j; apply some_insert].
Lemma cgka_rem h i c : remembers h (put_cgka h i c).
Proof. frame. Qed.
Lemma put_group_rem (h : client) i g : remembers h (put_group h i g).
Proof. frame. Qed.
Lemma put_doc_rem (h : client) i g : remembers h (put_doc h i g).
Proof. frame. Qed.
Lemma new_plain_rem (h : client) i g : remembers h (new_plain_group h i g).
Proof. frame. Qed.
Lemma new_document_rem (h : client) i g : remembers h (new_document h i g).
Proof. frame. Qed.
Lemma stores_rem (h h' : client) : h_groups h' = h_groups h -> h_docs h' = h_docs h -> h_keys h' = h_keys h -> h_cg h' = h_cg h -> (forall o, has_op h o -> has_op h' o) -> remembers h h'.
Proof. intros A B C D X. split; [exact X|rewrite A; auto|rewrite B; auto|rewrite C; auto|rewrite D; auto|unfold cgka_of; rewrite D; auto|unfold me; rewrite C; reflexivity]. Qed.
Lemma dlgs_frame ds : forall h : client, h_groups (foldl put_dlg h ds) = h_groups h /\ h_docs (foldl put_dlg h ds) = h_docs h /\ h_keys (foldl put_dlg h ds) = h_keys h /\ h_cg (foldl put_dlg h ds) = h_cg h.
Proof. induction ds as [|d ds IH]; intros h; [auto|]. exact (IH (put_dlg h d)). Qed.
Lemma revs_frame ds : forall h : client, h_groups (foldl put_rev h ds) = h_groups h /\ h_docs (foldl put_rev h ds) = h_docs h /\ h_keys (foldl put_rev h ds) = h_keys h /\ h_cg (foldl put_rev h ds) = h_cg h.
Proof. induction ds as [|d ds IH]; intros h; [auto|]. exact (IH (put_rev h d)). Qed.
Lemma made_rem (h : client) ds rs : stored h -> (forall o, has_op h o -> P o) -> (forall d, d ∈ ds -> P (MD d)) -> (forall r, r ∈ rs -> P (MR r)) -> remembers h (put_made h ds rs).
Proof.
  intros S In Pd Prv. destruct (put_made_spec pick P Pr h ds rs S In Pd Prv) as [_ Ho].
  assert (F : h_groups (put_made h ds rs) = h_groups h /\ h_docs (put_made h ds rs) = h_docs h /\ h_keys (put_made h ds rs) = h_keys h /\ h_cg (put_made h ds rs) = h_cg h).
  { unfold put_made. destruct (dlgs_frame ds h) as (A & B & C & D). destruct (revs_frame rs (foldl put_dlg h ds)) as (A' & B' & C' & D').
    destruct (revs_frame rs h) as (A2 & B2 & C2 & D2). destruct (dlgs_frame ds (foldl put_rev h rs)) as (A3 & B3 & C3 & D3). repeat split; congruence. }
  destruct F as (A & B & C & D). apply stores_rem; try assumption. intros o X. apply Ho. auto.
Qed.
Lemma put_at_rem (h : client) i g : remembers h (put_at h i g).
Proof. unfold put_at. destruct (h_groups h !! i); [apply put_group_rem|apply put_doc_rem]. Qed.
Lemma put_at_ops (h : client) i g : stored h -> (forall o, has_op h o -> P o) -> stored (put_at h i g) /\ forall o, has_op (put_at h i g) o -> P o.
Proof. intros S In. unfold put_at. destruct (h_groups h !! i); (split; [exact S|]; intros [d|r] X; [exact (In (MD d) X)|exact (In (MR r) X)]). Qed.
Lemma changed_rem h i g ds rs : settled h -> (forall d, d ∈ ds -> P (MD d)) -> (forall r, r ∈ rs -> P (MR r)) -> remembers h (put_made (put_at h i g) ds rs).
Proof.
  intros S Pd Prv. eapply remembers_trans; [apply put_at_rem|]. destruct (put_at_ops h i g (settled_stored _ _ h S) (se_in _ _ h S)). apply made_rem; assumption.
Qed.
Lemma add_keys_rem h i l hs h' r : doc_add_keys horder rorder h i l hs = (h', r) -> remembers h h'.
Proof.
  unfold doc_add_keys. destruct l; [intros [= <- <-]; apply remembers_refl|]. destruct (cgka_of h i); [|intros [= <- <-]; apply remembers_refl].
  destruct (add_keys _ _ _ _ _). intros [= <- <-]. apply cgka_rem.
Qed.
Lemma add_to_docs_rem pk gid who docs hs : forall h h' r, add_to_docs order horder rorder pk h gid who docs hs = (h', r) -> remembers h h'.
Proof.
  induction docs as [|j docs IH]; intros h h' r; cbn [add_to_docs]; [intros [= <- <-]; apply remembers_refl|].
  destruct (h_docs h !! j) as [g|]; [|apply IH]. destruct (negb _); [apply IH|]. destruct (pick_prekeys _ _ _ _ _) as [l|]; [|intros [= <- <-]; apply remembers_refl].
  destruct (doc_add_keys _ _ _ _ _ _) as [h1 [ops|e]] eqn:A; apply add_keys_rem in A; [|intros [= <- <-]; exact A].
  destruct (add_to_docs _ _ _ _ _ _ _ _ _) as [h2 [ops'|e]] eqn:B; apply IH in B; intros [= <- <-]; eapply remembers_trans; eauto.
Qed.
Lemma remove_from_docs_rem gid ids docs hs : forall h h' r, remove_from_docs order horder rorder h gid ids docs hs = (h', r) -> remembers h h'.
Proof.
  induction docs as [|j docs IH]; intros h h' r; cbn [remove_from_docs]; [intros [= <- <-]; apply remembers_refl|].
  destruct (h_docs h !! j) as [g|]; [|apply IH]. destruct (caps_of _ _ _) as [caps|]; [|intros [= <- <-]; apply remembers_refl]. destruct (bool_decide _); [|apply IH].
  cbv zeta. destruct (cgka_of h j) as [c|]; [|apply IH]. destruct (try_remove_keys _ _ _ _ _) as [c' [ops|e| |]]; [|intros [= <- <-]; apply cgka_rem..].
  destruct (remove_from_docs _ _ _ _ _ _ _ _) as [h2 [ops'|e]] eqn:B; apply IH in B; intros [= <- <-]; (eapply remembers_trans; [apply cgka_rem|exact B]).
Qed.
Lemma add_rem pk h i who can content s hs h' r : settled h -> (forall o, makes_adding order h i who can content s o -> P o) ->
  hive_add_member order horder rorder pk h i who can content s hs = (h', r) -> remembers h h'.
Proof.
  intros S Pm Q. unfold hive_add_member in Q. destruct (any_loop order h); [injection Q as <- <-; apply remembers_refl|].
  destruct (h_groups h !! i) as [g|] eqn:G.
  - destruct (add_member order (h_env h) g who can (me h) content s) as [[g' d]|] eqn:A; [|injection Q as <- <-; apply remembers_refl]. cbv zeta in Q.
    assert (S1 : remembers h (put_made (put_group h i g') [d] [])).
    { rewrite <- (put_at_group h i g g' G). apply changed_rem; [exact S| |intros y Y; inversion Y]. intros y Y. apply elem_of_list_singleton in Y as ->. apply Pm. exists g, g', d. unfold has_group. auto. }
    destruct (delegation_hangs _ _ _ _ || _); [injection Q as <- <-; exact S1|]. destruct (is_reader can); [|injection Q as <- <-; exact S1].
    destruct (add_to_docs _ _ _ _ _ _ _ _ _) as [h2 [ops|e]] eqn:B; apply add_to_docs_rem in B; injection Q as <- <-; exact (remembers_trans _ _ _ S1 B).
  - destruct (h_docs h !! i) as [g|] eqn:D; [|injection Q as <- <-; apply remembers_refl].
    destruct (add_member order (h_env h) g who can (me h) content s) as [[g' d]|] eqn:A; [|injection Q as <- <-; apply remembers_refl]. cbv zeta in Q.
    assert (S1 : remembers h (put_made (put_doc h i g') [d] [])).
    { rewrite <- (put_at_doc h i g' G). apply changed_rem; [exact S| |intros y Y; inversion Y]. intros y Y. apply elem_of_list_singleton in Y as ->. apply Pm. exists g, g', d. unfold has_group. auto. }
    destruct (delegation_hangs _ _ _ _ || _); [injection Q as <- <-; exact S1|]. destruct (is_reader can); [|injection Q as <- <-; exact S1].
    destruct (pick_prekeys _ _ _ _ _) as [l|]; [|injection Q as <- <-; exact S1].
    destruct (doc_add_keys _ _ _ _ _ _) as [h2 [ops|e]] eqn:B; apply add_keys_rem in B; injection Q as <- <-; exact (remembers_trans _ _ _ S1 B).
Qed.
Lemma revoke_rem h i target retain content sigs hs h' r : settled h -> (forall o, makes_revoking order h i target retain content sigs o -> P o) ->
  hive_revoke_member order horder rorder h i target retain content sigs hs = (h', r) -> remembers h h'.
Proof.
  intros S Pm Q. unfold hive_revoke_member in Q. destruct (any_loop order h); [injection Q as <- <-; apply remembers_refl|].
  assert (X : forall g g' rs ds, has_group h i g -> revoke_member order (h_env h) g target retain (me h) content sigs = GOk (g', rs, ds) -> remembers h (put_made (put_at h i g') ds rs)).
  { intros g g' rs ds G A. apply changed_rem; [exact S| |].
    - intros y Hy. apply Pm. exists g, g', rs, ds. split; [exact G|]. split; [exact A|]. right. apply elem_of_list_fmap. eauto.
    - intros y Hy. apply Pm. exists g, g', rs, ds. split; [exact G|]. split; [exact A|]. left. apply elem_of_list_fmap. eauto. }
  destruct (h_groups h !! i) as [g|] eqn:G.
  - destruct (behind _ _ _) as [ids|]; [|injection Q as <- <-; apply remembers_refl].
    destruct (revoke_member order (h_env h) g target retain (me h) content sigs) as [[[g' rs] ds]|] eqn:A; [|injection Q as <- <-; apply remembers_refl].
    destruct (revoking_hangs _ _ _ _ _); [injection Q as <- <-; apply remembers_refl|]. cbv zeta in Q. specialize (X g g' rs ds (or_introl G) A). rewrite (put_at_group h i g g' G) in X.
    destruct (bool_decide _); [injection Q as <- <-; exact X|]. destruct (remove_from_docs _ _ _ _ _ _ _ _) as [h2 [ops|e]] eqn:B; apply remove_from_docs_rem in B; injection Q as <- <-; exact (remembers_trans _ _ _ X B).
  - destruct (h_docs h !! i) as [g|] eqn:D; [|injection Q as <- <-; apply remembers_refl]. destruct (behind _ _ _) as [ids|]; [|injection Q as <- <-; apply remembers_refl].
    destruct (revoke_member order (h_env h) g target retain (me h) content sigs) as [[[g' rs] ds]|] eqn:A; [|injection Q as <- <-; apply remembers_refl].
    destruct (revoking_hangs _ _ _ _ _); [injection Q as <- <-; apply remembers_refl|]. cbv zeta in Q. specialize (X g g' rs ds (or_intror D) A). rewrite (put_at_doc h i g' G) in X.
    destruct (group_individual_ids _ _ _) as [still|]; [|injection Q as <- <-; exact X]. destruct (order _) as [|a gone]; [injection Q as <- <-; exact X|].
    destruct (cgka_of _ i) as [c|]; [|injection Q as <- <-; exact X].
    destruct (remove_keys _ _ _ _ _) as [c' [ops|e| |]]; injection Q as <- <-; exact (remembers_trans _ _ _ X (cgka_rem _ _ _)).
Qed.
Lemma receive_dlg_rem h x h' r : settled h ->
  (forall d, resolve_dlg h x = Datatypes.inr d -> P (MD d) /\ ks_indies (h_keys h) !! d_subject d = None) -> receive_dlg order doc_content h x = (h', r) -> remembers h h'.
Proof.
  intros S Pm Q. unfold receive_dlg in Q. destruct (bool_decide _); [injection Q as <- <-; apply remembers_refl|]. destruct (negb _); [injection Q as <- <-; apply remembers_refl|].
  destruct (resolve_dlg h x) as [er|d] eqn:R; [injection Q as <- <-; apply remembers_refl|]. destruct (Pm d eq_refl) as (Pd & Ni). cbv zeta in Q.
  assert (X : forall g', remembers h (put_made (put_at h (d_subject d) g') [d] [])).
  { intros g'. apply changed_rem; [exact S| |intros y Y; inversion Y]. intros y Y. apply elem_of_list_singleton in Y as ->. exact Pd. }
  destruct (h_groups h !! d_subject d) as [g|] eqn:G.
  - destruct (delegation_hangs _ _ _ _); [injection Q as <- <-; apply remembers_refl|]. destruct (receive_delegation order (h_env h) g d) as [g'|e]; [|injection Q as <- <-; apply remembers_refl]. injection Q as <- <-.
    specialize (X g'). rewrite (put_at_group h _ g g' G) in X. exact X.
  - destruct (h_docs h !! d_subject d) as [g|] eqn:D.
    + destruct (delegation_hangs _ _ _ _); [injection Q as <- <-; apply remembers_refl|]. destruct (receive_delegation order (h_env h) g d) as [g'|e]; [|injection Q as <- <-; apply remembers_refl]. injection Q as <- <-.
      specialize (X g'). rewrite (put_at_doc h _ g' G) in X. exact X.
    + rewrite Ni in Q. destruct (new_group order d) as [g|]; [|injection Q as <- <-; apply remembers_refl].
      assert (Y : remembers h (put_dlg h d)).
      { apply stores_rem; try reflexivity. intros o Ho. apply (put_dlg_spec P Pr h d (settled_stored _ _ h S) (se_in _ _ h S) Pd). auto. }
      injection Q as <- <-. destruct (doc_content _ _); (eapply remembers_trans; [exact Y|]); [apply new_document_rem|apply new_plain_rem].
Qed.
Lemma receive_rev_rem h x h' r : settled h -> (forall o, resolve_rev h x = Datatypes.inr o -> P (MR o)) -> (forall o, resolve_rev h x = Datatypes.inr o -> has_op h (MD (r_revoke o))) ->
  receive_rev order h x = (h', r) -> remembers h h'.
Proof.
  intros S Pm Pk Q. unfold receive_rev in Q. destruct (bool_decide _); [injection Q as <- <-; apply remembers_refl|]. destruct (negb _); [injection Q as <- <-; apply remembers_refl|].
  destruct (resolve_rev h x) as [er|o] eqn:R; [injection Q as <- <-; apply remembers_refl|]. pose proof (Pm o eq_refl) as Pd. cbv zeta in Q.
  destruct (se_known _ _ h S (MD (r_revoke o)) (Pk o eq_refl)) as (g0 & G0). cbn [op_subject] in G0. change (d_subject (r_revoke o)) with (r_subject o) in G0.
  assert (X : forall g', remembers h (put_made (put_at h (r_subject o) g') [] [o])).
  { intros g'. apply changed_rem; [exact S|intros y Y; inversion Y|]. intros y Y. apply elem_of_list_singleton in Y as ->. exact Pd. }
  destruct (h_groups h !! r_subject o) as [g|] eqn:G.
  - destruct (revocation_hangs _ _ _ _); [injection Q as <- <-; apply remembers_refl|]. destruct (receive_revocation order (h_env h) g o) as [g'|e]; [|injection Q as <- <-; apply remembers_refl]. injection Q as <- <-.
    specialize (X g'). rewrite (put_at_group h _ g g' G) in X. exact X.
  - destruct (h_docs h !! r_subject o) as [g|] eqn:D; [|exfalso; destruct G0; congruence].
    destruct (revocation_hangs _ _ _ _); [injection Q as <- <-; apply remembers_refl|]. destruct (receive_revocation order (h_env h) g o) as [g'|e]; [|injection Q as <- <-; apply remembers_refl]. injection Q as <- <-.
    specialize (X g'). rewrite (put_at_doc h _ g' G) in X. exact X.
Qed.
Lemma prekey_indies k o k' e : PrekeyModel.receive_prekey_op k o = (k', e) -> ks_active k' = ks_active k /\ forall i, is_Some (ks_indies k !! i) -> is_Some (ks_indies k' !! i).
Proof.
  unfold PrekeyModel.receive_prekey_op. repeat first [case_match | intros [= <- <-]; split; [reflexivity|]; intros j X; cbn; first [exact X|apply some_insert, X]];
    intros Q; injection Q as <- <-; (split; [reflexivity|]; intros j X; cbn; first [exact X|apply some_insert, X]).
Qed.
Lemma people_rem (h : client) k : ks_active k = ks_active (h_keys h) -> (forall i, is_Some (ks_indies (h_keys h) !! i) -> is_Some (ks_indies k !! i)) -> remembers h (put_keys h k).
Proof. intros A B. split; first [exact A|exact B|intros [d|r] X; exact X|intros; assumption]. Qed.
Lemma cg_rem (h : client) c : (forall k, is_Some (cs_pairs (h_cg h) !! k) -> is_Some (cs_pairs c !! k)) -> (forall i, is_Some (cs_docs (h_cg h) !! i) -> is_Some (cs_docs c !! i)) -> remembers h (put_cg h c).
Proof. intros A B. split; first [exact A|exact B|reflexivity|intros [d|r] X; exact X|intros; assumption]. Qed.
Lemma doc_receive_rem k x o c ok : doc_receive horder rorder k x o = (c, ok) -> cs_pairs c = cs_pairs x /\ forall i, is_Some (cs_docs x !! i) -> is_Some (cs_docs c !! i).
Proof.
  unfold doc_receive. intros Q. repeat (case_match; try discriminate); injection Q as <- <-; try (split; [reflexivity|]; intros j J; cbn; first [exact J|apply some_insert, J]).
Qed.

Theorem move_rem h h' : mixed h -> move h h' -> remembers h h' /\ mixed h'.
Proof.
  intros M V. pose proof (mixed_settled order horder rorder pick doc_content P O Pr h M) as S. split.
  2: { destruct V; [eapply mx_group|eapply mx_doc|eapply mx_add|eapply mx_revoke|eapply mx_update|eapply mx_encrypt|eapply mx_decrypt|eapply mx_receive|eapply mx_queue|eapply mx_prekey|eapply mx_card|eapply mx_import]; eassumption. }
  assert (New : forall (h1 : client) i g ps ct, generate_group order i ps ct = Some g -> NoDup ps.*2 -> (forall x, x ∈ ps -> P (MD (Dlg x.2 i x.1 Admin None [] ct))) ->
    stored h1 -> (forall o, has_op h1 o -> P o) -> remembers h1 (put_made h1 (map snd (map_to_list (gr_dheads g))) [])).
  { intros h1 i g ps ct E ND Pp S1 In1. apply made_rem; [exact S1|exact In1| |intros y Y; inversion Y]. intros d Hd. apply elem_of_list_fmap in Hd as ([s d'] & -> & Hd). apply elem_of_map_to_list in Hd. cbn [snd].
    unfold generate_group in E. destruct (rebuild_keeps _ _ _ E) as (_ & Eh & _). rewrite Eh in Hd. cbn in Hd. apply elem_of_list_to_map_2 in Hd. apply elem_of_list_fmap in Hd as (x & Ex & Hx). injection Ex as -> ->. apply Pp, Hx. }
  destruct V as [h i ps ct h' r N Np Ne ND Pp Q|h i ps ct sk h0 hs hu rng h' r N Np Ne ND Pp Q|h i who can ct s hs h' r Pm Q|h i t rt ct sigs hs h' r Pm Q|
    h j sk x rng h' r Q|h j rf ct pr sk x rng h' r Q|h j e h' r Q|h x h' r Pm Q|h l|h mk sk h' o Q|h o|h l].
  - unfold hive_generate_group in Q. destruct (generate_group order i ps ct) as [g|] eqn:E; [|injection Q as <- <-; apply remembers_refl]. injection Q as <- <-.
    eapply remembers_trans; [apply (new_plain_rem h i g)|]. eapply New; eauto; [exact (settled_stored _ _ h S)|]. intros [d|y] X; [exact (se_in _ _ h S (MD d) X)|exact (se_in _ _ h S (MR y) X)].
  - unfold hive_generate_doc in Q. destruct (generate_group order i ps ct) as [g|] eqn:E; [|injection Q as <- <-; apply remembers_refl]. destruct (prekey_individuals _ _ _ _ _) as [s|]; [|injection Q as <- <-; apply remembers_refl]. cbv zeta in Q.
    destruct (cgka_from_init _ _ _) as [c| | |]; [|injection Q as <- <-; apply remembers_refl..]. destruct (add_keys _ _ _ _ _) as [c1 [ops| | |]]; [|injection Q as <- <-; apply remembers_refl..].
    destruct (cgka_update _ _ _ _ _ _) as [c2 [[[x op] y]| | |]]; [|injection Q as <- <-; apply remembers_refl..]. injection Q as <- <-. eapply remembers_trans; [|apply cgka_rem].
    eapply remembers_trans; [apply (new_document_rem h i g)|]. eapply New; eauto; [exact (settled_stored _ _ h S)|]. intros [d|z] X; [exact (se_in _ _ h S (MD d) X)|exact (se_in _ _ h S (MR z) X)].
  - eapply add_rem; eauto.
  - eapply revoke_rem; eauto.
  - unfold hive_update in Q. destruct (cgka_of h j) as [c|]; [|injection Q as <- <-; apply remembers_refl]. destruct (cgka_update _ _ _ _ _ _) as [c1 y]. injection Q as <- <-. apply cgka_rem.
  - unfold hive_encrypt in Q. destruct (cgka_of h j) as [c|]; [|injection Q as <- <-; apply remembers_refl]. destruct (new_app_secret_for _ _ _ _ _ _ _ _ _) as [c1 y]. injection Q as <- <-. apply cgka_rem.
  - unfold hive_decrypt in Q. destruct (cgka_of h j) as [c|]; [|injection Q as <- <-; apply remembers_refl]. destruct (decryption_key_for _ _ _) as [c1 [k| | |]]; injection Q as <- <-; apply cgka_rem.
  - destruct x as [o|o|d|d]; cbn [receive_event] in Q.
    + unfold receive_key_event in Q. destruct (PrekeyModel.receive_prekey_op (h_keys h) o) as [k e] eqn:K. injection Q as <- <-. destruct (prekey_indies _ _ _ _ K). apply people_rem; assumption.
    + unfold receive_cgka in Q. destruct (negb _); [injection Q as <- <-; apply remembers_refl|]. destruct (h_docs h !! do_doc o); [|injection Q as <- <-; apply remembers_refl]. destruct (doc_receive _ _ _ _ _) as [c ok] eqn:K. injection Q as <- <-.
      destruct (doc_receive_rem _ _ _ _ _ K) as [A B]. apply cg_rem; [rewrite A; auto|exact B].
    + eapply receive_dlg_rem; [exact S| |exact Q]. intros y Y. destruct (Pm (MD y)) as (A & _ & B); [exists y; auto|]. split; [exact A|exact B].
    + eapply receive_rev_rem; [exact S| | |exact Q]; intros y Y.
      * apply (Pm (MR y)). exists y. auto.
      * apply (proj1 (resolve_rev_parents order P h d y S Y)). left.
  - apply stores_rem; try reflexivity. intros [d|r] X; exact X.
  - unfold make_prekey in Q. destruct (ks_indies (h_keys h) !! me h) as [x|]; [|discriminate]. destruct (mk _ _) as [a y]. apply (inj Some) in Q. injection Q as <- <-.
    eapply remembers_trans; [apply (people_rem h (set_indie (h_keys h) (me h) (ac_ind a))); [reflexivity|]; intros i X; cbn; apply some_insert, X|]. apply cg_rem; [|auto]. intros k X. cbn. apply some_insert, X.
  - unfold receive_contact_card. destruct (ks_indies (h_keys h) !! ko_issuer o) as [x|]; [destruct (receive_key x o)|]; (apply people_rem; [reflexivity|]; intros q X; cbn; apply some_insert, X).
  - apply cg_rem; [|auto]. intros k [y X]. cbn. rewrite lookup_union. rewrite X. destruct (l !! k); cbn; eauto.
Qed.
End remember.
