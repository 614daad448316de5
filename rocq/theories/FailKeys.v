(** Calls that fail: keys and received events. *)
From Coq Require Import Arith Lia.
From stdpp Require Import base list gmap relations.
From Verif Require Import ResModel KeysModel TreeModel OpsModel CgkaModel CgkaSpec CgkaProofs CgkaPropsProofs NetProofs.
From Verif Require Import AccessModel GroupModel PrekeyModel HiveModel HiveSpec SyncModel.
From Verif Require Import DocModel DocSpec DocKeys DocProofs FailModel FailSpec.

Section keys.
Context (order : gset nat -> list nat) (doc_content : nat -> ident -> bool).
Context (horder : gset digest -> list digest) (rorder : gset (member_id * nat) -> list (member_id * nat)).

Lemma update_failed c sk x rng c' r : cgka_update horder rorder c sk x rng = (c', r) -> (forall y, r <> Ok y) -> c_graph c' = c_graph c.
Proof.
  intros Q N. unfold cgka_update in Q. destruct (maybe_replay horder rorder c) as [c1|e| |] eqn:Em; [|injection Q as <- <-; auto..].
  apply maybe_replay_graph in Em as (G & _).
  destruct (update_identity _ _ _) as [[[id pk] sk']|e| |]; [|injection Q as <- <-; cbn; auto..].
  destruct (encrypt_path _ _ _ _ _) as [[[[[t k] path] sks] rng']|e| |]; injection Q as <- <-; cbn [c_graph set_sks]; auto. destruct (N _ eq_refl).
Qed.
Lemma secret_failed c ref content preds sk x rng c' r : new_app_secret_for horder rorder c ref content preds sk x rng = (c', r) -> (forall y, r <> Ok y) -> c_graph c' = c_graph c.
Proof.
  intros Q N. unfold new_app_secret_for in Q. destruct (has_pcs_key c) as [[]|e| |].
  3-5: injection Q as <- <-; auto.
  - destruct (pcs_key_from_tree_root c) as [c1 r1] eqn:Er. apply root_graph in Er as [sks ->].
    destruct r1 as [k|e| |]; [|injection Q as <- <-; auto..].
    destruct (c_pcs _ !! _); [|destruct (horder _)]; destruct (c_pcs_ops _ !! _); injection Q as <- <-; auto.
  - destruct (cgka_update _ _ _ _ _ _) as [c1 r1] eqn:Eu. destruct r1 as [[[k op] rng']|e| |].
    + cbn [c_pcs_ops insert_pcs_key] in Q. rewrite lookup_insert in Q. injection Q as _ <-. destruct (N _ eq_refl).
    + injection Q as <- <-. exact (update_failed _ _ _ _ _ _ Eu ltac:(congruence)).
    + injection Q as <- <-. exact (update_failed _ _ _ _ _ _ Eu ltac:(congruence)).
    + injection Q as <- <-. exact (update_failed _ _ _ _ _ _ Eu ltac:(congruence)).
Qed.
Lemma same_refl' h i : same_but_work h h i.
Proof. repeat split. Qed.
Lemma put_same h i c c' : cgka_of h i = Some c -> c_graph c' = c_graph c -> same_but_work h (put_cgka h i c') i.
Proof.
  intros E G. unfold same_but_work, key_history. rewrite cgka_put, decide_True, E by reflexivity. cbn. rewrite G. repeat split.
  intros j N. rewrite cgka_put, decide_False by exact N. reflexivity.
Qed.
Lemma of_res_ok {A} (r : res A) y : of_res r = DErr y -> forall z, r <> Ok z.
Proof. destruct r; intros Q z Z; discriminate. Qed.
Lemma hive_update_failed h i sk x rng h' y : hive_update horder rorder h i sk x rng = (h', DErr y) -> same_but_work h h' i.
Proof.
  unfold hive_update. destruct (cgka_of h i) as [c|] eqn:E; [|intros Q; injection Q as <- _; apply same_refl'].
  destruct (cgka_update horder rorder c sk x rng) as [c' r] eqn:A. intros Q. injection Q as <- Q. apply (put_same h i c); [exact E|].
  apply (update_failed _ _ _ _ _ _ A). intros z ->. destruct z as [[? ?] ?]. discriminate.
Qed.
Lemma hive_encrypt_failed h i ref content preds sk x rng h' y : hive_encrypt horder rorder h i ref content preds sk x rng = (h', DErr y) -> same_but_work h h' i.
Proof.
  unfold hive_encrypt. destruct (cgka_of h i) as [c|] eqn:E; [|intros Q; injection Q as <- _; apply same_refl'].
  destruct (new_app_secret_for horder rorder c ref content preds sk x rng) as [c' r] eqn:A. intros Q. injection Q as <- Q. apply (put_same h i c); [exact E|].
  apply (secret_failed _ _ _ _ _ _ _ _ _ A). intros z ->. destruct z as [? ?]. discriminate.
Qed.
Lemma hive_decrypt_any h i e h' r : hive_decrypt rorder h i e = (h', r) -> same_but_work h h' i.
Proof.
  unfold hive_decrypt. destruct (cgka_of h i) as [c|] eqn:E; [|intros Q; injection Q as <- _; apply same_refl'].
  destruct (decryption_key_for rorder c e) as [c' k] eqn:A. apply decryption_graph in A as [A _]. intros Q.
  assert (h' = put_cgka h i c') as -> by (destruct k; injection Q; auto). exact (put_same h i c c' E A).
Qed.

(** ** Received events *)

Lemma merge_failed c op c' r : merge_cgka_op horder rorder c op = (c', r) -> (forall b, r <> Ok b) -> c_graph <$> c' = c_graph <$> c.
Proof.
  unfold merge_cgka_op. destruct c as [c|].
  - destruct (merge_concurrent_operation horder rorder c op) as [c1 r1] eqn:M. intros Q N. injection Q as <- <-. cbn. f_equal. exact (merge_fail_lemma _ _ _ _ _ _ M N).
  - intros Q N. destruct (so_op op); [|injection Q as <- <-; reflexivity..]. destruct preds; [|injection Q as <- <-; reflexivity].
    destruct (cgka_from_init _ _ _); injection Q as <- <-; try reflexivity. destruct (N _ eq_refl).
Qed.
Lemma invite_failed c op sk c' r : merge_cgka_invite_op horder rorder c op sk = (c', r) -> (forall b, r <> Ok b) -> c_graph <$> c' = c_graph <$> c.
Proof.
  unfold merge_cgka_invite_op. destruct (so_op op); [|intros Q; injection Q as <- <-; reflexivity..]. destruct c as [c|]; [|intros Q; injection Q as <- <-; reflexivity].
  destruct (negb _); [intros Q; injection Q as <- <-; reflexivity|]. intros Q N. rewrite (merge_failed _ _ _ _ Q N). reflexivity.
Qed.
Lemma doc_receive_failed k x o x' : doc_receive horder rorder k x o = (x', false) ->
  cs_pairs x' = cs_pairs x /\ (forall j, j <> do_doc o -> cs_docs x' !! j = cs_docs x !! j) /\ c_graph <$> cs_docs x' !! do_doc o = c_graph <$> cs_docs x !! do_doc o.
Proof.
  set (put := fun c : option cgka => match c with Some c => Cgs (cs_pairs x) (<[do_doc o := c]> (cs_docs x)) | None => x end).
  assert (Put : forall c, c_graph <$> c = c_graph <$> cs_docs x !! do_doc o -> x' = put c ->
    cs_pairs x' = cs_pairs x /\ (forall j, j <> do_doc o -> cs_docs x' !! j = cs_docs x !! j) /\ c_graph <$> cs_docs x' !! do_doc o = c_graph <$> cs_docs x !! do_doc o).
  { intros c E ->. destruct c as [c|]; cbn [put cs_pairs cs_docs]; [|auto]. split; [reflexivity|]. split; [intros j N; apply lookup_insert_ne; congruence|]. rewrite lookup_insert. exact E. }
  unfold doc_receive. fold put. set (c := cs_docs x !! do_doc o) in *.
  assert (Plain : (let '(c0, r) := merge_cgka_op horder rorder c (do_op o) in (put c0, match r with Ok _ => true | _ => false end)) = (x', false) ->
    cs_pairs x' = cs_pairs x /\ (forall j, j <> do_doc o -> cs_docs x' !! j = cs_docs x !! j) /\ c_graph <$> cs_docs x' !! do_doc o = c_graph <$> c).
  { destruct (merge_cgka_op horder rorder c (do_op o)) as [c' r] eqn:M. intros Q. injection Q as Q1 Q2. apply (Put c'); [|auto]. apply (merge_failed _ _ _ _ M). intros b ->. discriminate. }
  destruct (so_op (do_op o)) as [id pk i p1 p2| |]; [|exact Plain..]. destruct (id =? ks_active k).
  - destruct (cs_pairs x !! pk) as [sk|]; [|intros Q; injection Q as <-; auto]. destruct (merge_cgka_invite_op horder rorder c (do_op o) sk) as [c' r] eqn:M. intros Q. injection Q as Q1 Q2.
    apply (Put c'); [|auto]. apply (invite_failed _ _ _ _ _ M). intros b ->. discriminate.
  - destruct (id =? ks_public k); [|exact Plain]. destruct (merge_cgka_invite_op horder rorder c (do_op o) public_secret) as [c' r] eqn:M. destruct r as [b| | |].
    + destruct c' as [c'|]; cbn [reset_cgka_owner]; intros Q; [discriminate|]. exfalso.
      unfold merge_cgka_invite_op in M. destruct (so_op (do_op o)); try discriminate. destruct c; [|discriminate]. destruct (negb _); [discriminate|].
      unfold merge_cgka_op in M. destruct (merge_concurrent_operation _ _ _ _); discriminate.
    + intros Q. injection Q as Q1. apply (Put c'); [|auto]. apply (invite_failed _ _ _ _ _ M). congruence.
    + intros Q. injection Q as Q1. apply (Put c'); [|auto]. apply (invite_failed _ _ _ _ _ M). congruence.
    + intros Q. injection Q as Q1. apply (Put c'); [|auto]. apply (invite_failed _ _ _ _ _ M). congruence.
Qed.
Notation receive := (receive_event order doc_content do_doc do_ok (doc_receive horder rorder)).
Lemma receive_key_failed h o h' y : receive h (ECgka o) = (h', HFail y) -> same_but_work h h' (do_doc o).
Proof.
  cbn [receive_event]. unfold receive_cgka. destruct (negb _); [intros Q; injection Q as <- _; apply same_refl'|].
  destruct (h_docs h !! do_doc o); [|intros Q; injection Q as <- _; apply same_refl']. destruct (doc_receive horder rorder (h_keys h) (h_cg h) o) as [x []] eqn:A; intros Q; [discriminate|].
  injection Q as <- _. destruct (doc_receive_failed _ _ _ _ A) as (E1 & E2 & E3). unfold same_but_work, key_history, cgka_of. cbn. repeat split; auto.
Qed.
Lemma receive_dlg_failed h d h' y : receive h (EDlg d) = (h', HFail y) -> h' = h.
Proof.
  cbn [receive_event]. unfold receive_dlg. destruct (bool_decide _); [discriminate|]. destruct (negb _); [intros Q; injection Q; auto|]. destruct (resolve_dlg h d) as [er|x]; [intros Q; injection Q; auto|].
  cbv zeta. destruct (h_groups h !! _).
  - destruct (delegation_hangs _ _ _ _); [discriminate|]. destruct (receive_delegation _ _ _ _); [discriminate|]. intros Q; injection Q; auto.
  - destruct (h_docs h !! _).
    + destruct (delegation_hangs _ _ _ _); [discriminate|]. destruct (receive_delegation _ _ _ _); [discriminate|]. intros Q; injection Q; auto.
    + destruct (ks_indies _ !! _); [destruct (promotion_panics _ _); discriminate|]. destruct (new_group _ _); [discriminate|]. intros Q; injection Q; auto.
Qed.
Lemma receive_rev_failed h r h' y : receive h (ERev r) = (h', HFail y) -> (forall d, h_dlgs h !! sr_revoke r = Some d -> is_Some (h_env h !! d_subject d)) -> h' = h.
Proof.
  cbn [receive_event]. unfold receive_rev. destruct (bool_decide _); [discriminate|]. destruct (negb _); [intros Q; injection Q; auto|]. unfold resolve_rev. destruct (h_dlgs h !! sr_revoke r) as [t|]; [|intros Q; injection Q; auto].
  destruct (find_proof_dlg _ _) as [s|p]; [intros Q; injection Q; auto|]. cbv zeta. unfold r_subject. cbn [r_revoke]. intros Q S. specialize (S t eq_refl).
  destruct (h_groups h !! d_subject t) eqn:G.
  - destruct (revocation_hangs _ _ _ _); [discriminate|]. destruct (receive_revocation _ _ _ _); [discriminate|]. injection Q; auto.
  - destruct (h_docs h !! d_subject t) eqn:D.
    + destruct (revocation_hangs _ _ _ _); [discriminate|]. destruct (receive_revocation _ _ _ _); [discriminate|]. injection Q; auto.
    + destruct S as [m S]. assert (X : h_env h !! d_subject t = None) by (apply env_none; auto). congruence.
Qed.
Lemma receive_key_error x o x' y : receive_key x o = (x', Some y) -> x' = x.
Proof. unfold receive_key. repeat case_match; intros Q; injection Q; auto; discriminate. Qed.
Lemma receive_prekey_failed h o h' y : receive h (EKey o) = (h', HFail y) -> has_record h (ko_issuer o) -> h' = h.
Proof.
  cbn [receive_event]. unfold receive_key_event, receive_prekey_op. intros Q A.
  assert (Eta : forall k, k = h_keys h -> put_keys h k = h) by (intros k ->; destruct h; reflexivity).
  destruct (ko_issuer o =? ks_public (h_keys h)); [discriminate|].
  destruct (ko_issuer o =? ks_active (h_keys h)) eqn:Ea.
  - destruct (ks_indies (h_keys h) !! ko_issuer o) as [x|] eqn:E; [|discriminate]. destruct (receive_key x o) as [x' [z|]] eqn:R; [|discriminate]. injection Q as <- _.
    rewrite (receive_key_error _ _ _ _ R). apply Eta. unfold set_indie. destruct (h_keys h) as [a p i ds gs]. cbn in *. rewrite insert_id by exact E. reflexivity.
  - destruct (ks_docs (h_keys h) !! ko_issuer o) as [[x|]|] eqn:E; [| discriminate |].
    + destruct (receive_key x o) as [x' [z|]] eqn:R; [|discriminate]. injection Q as <- _. rewrite (receive_key_error _ _ _ _ R). apply Eta. unfold set_doc. destruct (h_keys h) as [a p i ds gs]. cbn in *. rewrite insert_id by exact E. reflexivity.
    + destruct (ks_groups (h_keys h) !! ko_issuer o) as [[x|]|] eqn:E'; [|discriminate|].
      * destruct (receive_key x o) as [x' [z|]] eqn:R; [|discriminate]. injection Q as <- _. rewrite (receive_key_error _ _ _ _ R). apply Eta. unfold set_group. destruct (h_keys h) as [a p i ds gs]. cbn in *. rewrite insert_id by exact E'. reflexivity.
      * destruct (ks_indies (h_keys h) !! ko_issuer o) as [x|] eqn:E2.
        -- destruct (receive_key x o) as [x' [z|]] eqn:R; [|discriminate]. injection Q as <- _. rewrite (receive_key_error _ _ _ _ R). apply Eta. unfold set_indie. destruct (h_keys h) as [a p i ds gs]. cbn in *. rewrite insert_id by exact E2. reflexivity.
        -- exfalso. apply Nat.eqb_neq in Ea. unfold has_record in A. rewrite E, E', E2 in A. destruct A as [A|[[? A]|[[? A]|[? A]]]]; [contradiction|discriminate..].
Qed.
End keys.
