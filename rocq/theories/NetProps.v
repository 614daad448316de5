(** Group key agreement between honest replicas over any network: convergence (C41), epoch keys
    (C42), reading content (C43). *)
From stdpp Require Import base list gmap relations.
From Verif Require Import ResModel KeysModel TreeModel OpsModel OpsSpec CgkaModel CgkaSpec NetSpec NetProofs NetInv NetRun CgkaPropsProofs.

(** ** C41.  Replicas with the same operations and one head hold the same tree, whatever the
    order of delivery and of iteration over hash maps. *)
Theorem C41_replicas_converge ho ro n r r' c c' :
  (forall i, some_order (ho i)) -> (forall i, some_order (ro i)) ->
  net_reachable ho ro n -> n_reps n !! r = Some c -> n_reps n !! r' = Some c' ->
  g_ops (c_graph c) = g_ops (c_graph c') -> has_single_head (c_graph c) = true -> c_tree c = c_tree c'.
Proof. intros HH HR. exact (net_converge_lemma ho ro HH HR n r r' c c'). Qed.
Print Assumptions C41_replicas_converge.

(** With several heads they may differ: versions of a node pile up in order of arrival. *)
Theorem C41_several_heads_refuted :
  exists n r r' c c', net_reachable asc_h asc_r n /\ n_reps n !! r = Some c /\ n_reps n !! r' = Some c' /\
    g_ops (c_graph c) = g_ops (c_graph c') /\ g_ops (c_graph c) = n_ops n /\ c_tree c <> c_tree c'.
Proof. exact several_heads_refuted_lemma. Qed.
Print Assumptions C41_several_heads_refuted.

(** ** C42.  Any two replicas that derive the key of an epoch derive the same one. *)
Theorem C42_epoch_key_agreement ho ro n r r' c c' h d d' k k' :
  (forall i, some_order (ho i)) -> (forall i, some_order (ro i)) ->
  net_reachable ho ro n -> n_reps n !! r = Some c -> n_reps n !! r' = Some c' ->
  derive_pcs_key_for_op (ro r) c h = (d, Ok k) -> derive_pcs_key_for_op (ro r') c' h = (d', Ok k') -> k = k'.
Proof. intros HH HR. exact (net_epoch_key_lemma ho ro HH HR n r r' c c' h d d' k k'). Qed.
Print Assumptions C42_epoch_key_agreement.

(** The same for the current key of replicas with the same history and one head. *)
Theorem C42_current_key_agreement ho ro n r r' c c' d d' k k' :
  (forall i, some_order (ho i)) -> (forall i, some_order (ro i)) ->
  net_reachable ho ro n -> n_reps n !! r = Some c -> n_reps n !! r' = Some c' ->
  g_ops (c_graph c) = g_ops (c_graph c') -> has_single_head (c_graph c) = true ->
  pcs_key_from_tree_root c = (d, Ok k) -> pcs_key_from_tree_root c' = (d', Ok k') -> k = k'.
Proof. intros HH HR. exact (net_current_key_lemma ho ro HH HR n r r' c c' d d' k k'). Qed.
Print Assumptions C42_current_key_agreement.

(** ** C43.  A key a replica computes for a ciphertext sent by anybody opens it and yields the
    content that was sealed. *)
Theorem C43_content_opens ho ro n r c e c' key :
  (forall i, some_order (ho i)) -> (forall i, some_order (ro i)) ->
  net_reachable ho ro n -> n_reps n !! r = Some c -> e ∈ n_cts n ->
  decryption_key_for (ro r) c e = (c', Ok key) -> content_decrypt e key = Some (ct_plain (ec_cipher e)).
Proof. intros HH HR. exact (net_decrypt_lemma ho ro HH HR n r c e c' key). Qed.
Print Assumptions C43_content_opens.

(** The author of a message can read it at any later time, whatever happens in between. *)
Theorem C43_author_reads ho ro n n1 n' r c c1 ref content preds sk h rng s o c' :
  (forall i, some_order (ho i)) -> (forall i, some_order (ro i)) ->
  net_reachable ho ro n -> n_reps n !! r = Some c -> n_ops n !! h = None ->
  new_app_secret_for (ho r) (ro r) c ref content preds sk h rng = (c1, Ok (s, o)) ->
  n1 = sent (moved n r c1) [app_encrypt s content] -> rtc (net_step ho ro) n1 n' -> n_reps n' !! r = Some c' ->
  exists key, decryption_key_for (ro r) c' (app_encrypt s content) = (c', Ok key) /\
    content_decrypt (app_encrypt s content) key = Some content.
Proof. intros HH HR. exact (net_author_decrypts_lemma ho ro HH HR n n1 n' r c c1 ref content preds sk h rng s o c'). Qed.
Print Assumptions C43_author_reads.

(** A replica never loses an epoch key it has derived. *)
Theorem C43_keys_kept ho ro n n' r c :
  (forall i, some_order (ho i)) -> (forall i, some_order (ro i)) ->
  net_reachable ho ro n -> rtc (net_step ho ro) n n' -> n_reps n !! r = Some c ->
  exists c', n_reps n' !! r = Some c' /\ c_pcs c ⊆ c_pcs c'.
Proof. intros HH HR. exact (net_keys_kept ho ro HH HR n n' r c). Qed.
Print Assumptions C43_keys_kept.

(** Non-vacuity: two replicas update concurrently, exchange everything, one updates again; they
    have one history with one head and the same key, and one reads what the other wrote. *)
Example net_example_reachable : net_reachable asc_h asc_r w_settled.
Proof. apply w_run_reachable. vm_compute. reflexivity. Qed.
Example net_example_orders : (forall i, some_order (asc_h i)) /\ (forall i, some_order (asc_r i)).
Proof. split; intros i; [apply asc_h_order|apply asc_r_order]. Qed.
Example net_example :
  let c := rep w_settled 0 in let c' := rep w_settled 1 in
  g_ops (c_graph c) = g_ops (c_graph c') /\ has_single_head (c_graph c) = true /\
  (pcs_key_from_tree_root c).2 = Ok 61 /\ (pcs_key_from_tree_root c').2 = Ok 61 /\
  (derive_pcs_key_for_op (asc_r 0) c 102).2 = Ok 31 /\ (derive_pcs_key_for_op (asc_r 1) c' 102).2 = Ok 31 /\
  match n_cts w_settled with
  | [e] => match (decryption_key_for (asc_r 1) c' e).2 with Ok key => content_decrypt e key = Some [1;2;3] | _ => False end
  | _ => False
  end.
Proof. split; [apply map_to_list_inj; vm_compute; reflexivity|]. vm_compute. auto 10. Qed.
