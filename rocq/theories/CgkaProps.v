(** Group key agreement as one replica sees it: causal delivery (C11), concurrent membership
    changes (C14), application secrets (C15). *)
From stdpp Require Import base list gmap relations.
From Verif Require Import ResModel KeysModel TreeMathModel TreeModel OpsModel OpsSpec CgkaModel CgkaSpec NetSpec NetRun NetKeys CgkaPropsProofs.

(** ** C11.  An operation enters the history only after all its predecessors. *)
Theorem C11_missing_predecessor_rejected ho ro c op p :
  g_ops (c_graph c) !! so_hash op = None -> p ∈ op_preds (so_op op) -> g_ops (c_graph c) !! p = None ->
  merge_concurrent_operation ho ro c op = (c, Err EOutOfOrderOperation).
Proof. exact (merge_missing_lemma ho ro c op p). Qed.
Print Assumptions C11_missing_predecessor_rejected.

(** An operation already known changes nothing. *)
Theorem C11_duplicate_ignored ho ro c op :
  is_Some (g_ops (c_graph c) !! so_hash op) -> merge_concurrent_operation ho ro c op = (c, Ok false).
Proof. exact (merge_known_lemma ho ro c op). Qed.
Print Assumptions C11_duplicate_ignored.

(** A call that reports success says truthfully whether the operation was new, stores exactly
    that operation, and had all its predecessors. *)
Theorem C11_accepted ho ro c op c' b :
  merge_concurrent_operation ho ro c op = (c', Ok b) ->
  g_ops (c_graph c') = (if b then <[so_hash op := op]> (g_ops (c_graph c)) else g_ops (c_graph c)) /\
  (b = true <-> g_ops (c_graph c) !! so_hash op = None) /\
  (b = true -> forall p, p ∈ op_preds (so_op op) -> is_Some (g_ops (c_graph c) !! p)).
Proof. exact (merge_accept_lemma ho ro c op c' b). Qed.
Print Assumptions C11_accepted.

(** A call that fails leaves the history as it was. *)
Theorem C11_failure_keeps_history ho ro c op c' r :
  merge_concurrent_operation ho ro c op = (c', r) -> (forall b, r <> Ok b) -> c_graph c' = c_graph c.
Proof. exact (merge_fail_lemma ho ro c op c' r). Qed.
Print Assumptions C11_failure_keeps_history.

(** A membership change that is concurrent with what is known here is accepted, and so is from then on every
    operation that is concurrent with what is known and whose predecessors are known: for instance an update by a
    member added concurrently, who has no leaf here yet. *)
Theorem C11_concurrent_change_accepted ho ro c op op2 :
  (exists h, h ∈ g_heads (c_graph c) /\ h ∉ op_preds (so_op op)) ->
  g_ops (c_graph c) !! so_hash op = None -> (forall p, p ∈ op_preds (so_op op) -> is_Some (g_ops (c_graph c) !! p)) ->
  is_update (so_op op) = false ->
  exists c1, merge_concurrent_operation ho ro c op = (c1, Ok true) /\
    ((exists h, h ∈ g_heads (c_graph c1) /\ h ∉ op_preds (so_op op2)) ->
     g_ops (c_graph c1) !! so_hash op2 = None -> (forall p, p ∈ op_preds (so_op op2) -> is_Some (g_ops (c_graph c1) !! p)) ->
     exists c2, merge_concurrent_operation ho ro c1 op2 = (c2, Ok true)).
Proof.
  intros A B C D. destruct (merge_concurrent_change ho ro c op op2 A (conj B C) D) as (c1 & E & F).
  exists c1. split; [exact E|]. intros A2 B2 C2. exact (F A2 (conj B2 C2)).
Qed.
Print Assumptions C11_concurrent_change_accepted.

(** Whatever calls were made: a known operation's whole causal past is known. *)
Theorem C11_history_closed ho ro c h :
  some_order ho -> cgka_reachable ho ro c -> is_Some (g_ops (c_graph c) !! h) -> ancestors_known (c_graph c) h.
Proof. exact (history_closed_lemma ho ro c h). Qed.
Print Assumptions C11_history_closed.

(** No call forgets or replaces an operation. *)
Theorem C11_history_grows ho ro c c' :
  cgka_step ho ro c c' -> g_ops (c_graph c) ⊆ g_ops (c_graph c').
Proof. exact (history_grows_lemma ho ro c c'). Qed.
Print Assumptions C11_history_grows.

(** Changes that await a replay exist only while the history has several heads. *)
Theorem C11_pending_only_when_concurrent ho ro c :
  some_order ho -> cgka_reachable ho ro c -> c_pending c = true -> has_single_head (c_graph c) = false.
Proof. intros HH. exact (pending_heads ho ro HH c). Qed.
Print Assumptions C11_pending_only_when_concurrent.

(** Non-vacuity: a network whose second replica accepted operations, with several heads. *)
Example C11_example :
  let c := rep w_mutual 0 in
  c_pending c = true /\ has_single_head (c_graph c) = false /\ size (g_ops (c_graph c)) = 5 /\
  (merge_concurrent_operation (asc_h 0) (asc_r 0) c (SignedOp 500 (CAdd 9 19 3 [499] []))).2 = Err EOutOfOrderOperation /\
  (merge_concurrent_operation (asc_h 0) (asc_r 0) c (SignedOp 500 (CAdd 9 19 3 [111] []))).2 = Ok true.
Proof. vm_compute. auto. Qed.

(** ** C14.  Concurrent membership changes.  The intended property (every member whose addition
    is not concurrent with their own removal ends with one usable leaf, and the replay always
    succeeds) is false of the code: five counterexamples, each with honest replicas only. *)

(** A member was added and never removed, yet has no leaf: another member with the same
    history derives the group key, the added member's replica panics. *)
Theorem C14_added_member_kept_refuted :
  exists n r r' c c' k, net_reachable asc_h asc_r n /\ n_reps n !! r = Some c /\ n_reps n !! r' = Some c' /\
    g_ops (c_graph c) = g_ops (c_graph c') /\
    is_added (c_graph c) (c_owner c) /\ ~ is_removed (c_graph c) (c_owner c) /\
    (forall i l, leaf_at (c_tree c) i = Ok (Some l) -> l_id l <> c_owner c) /\
    (pcs_key_from_tree_root c').2 = Ok k /\ (pcs_key_from_tree_root c).2 = Panic.
Proof. exact add_lost_refuted_lemma. Qed.
Print Assumptions C14_added_member_kept_refuted.

(** Two members add the same third one: two leaves carry one member's id. *)
Theorem C14_one_leaf_each_refuted :
  exists n r c i j l l', net_reachable asc_h asc_r n /\ n_reps n !! r = Some c /\ has_single_head (c_graph c) = true /\
    leaf_at (c_tree c) i = Ok (Some l) /\ leaf_at (c_tree c) j = Ok (Some l') /\ i <> j /\ l_id l = l_id l'.
Proof. exact add_twice_refuted_lemma. Qed.
Print Assumptions C14_one_leaf_each_refuted.

(** Two members remove the same third one, or each other: every later update fails. *)
Theorem C14_replay_succeeds_refuted :
  exists n n' r c c', net_reachable asc_h asc_r n /\ net_reachable asc_h asc_r n' /\
    n_reps n !! r = Some c /\ n_reps n' !! r = Some c' /\
    (forall sk h rng, (cgka_update (asc_h r) (asc_r r) c sk h rng).2 = Err EIdentifierNotFound) /\
    (forall sk h rng, (cgka_update (asc_h r) (asc_r r) c' sk h rng).2 = Err ERemoveLastMember).
Proof. exact replay_fails_refuted_lemma. Qed.
Print Assumptions C14_replay_succeeds_refuted.

(** A removal concurrent with an addition and an update by the added member: the replay walks
    up from a leaf outside the tree and never meets the root, whatever the fuel. *)
Theorem C14_replay_terminates_refuted :
  exists n r c, net_reachable asc_h asc_r n /\ n_reps n !! r = Some c /\
    maybe_replay (asc_h r) (asc_r r) c = OutOfFuel /\ (forall fuel, direct_path_loop fuel (leaf_to_tree 2) (root 3) = None).
Proof. exact replay_hangs_refuted_lemma. Qed.
Print Assumptions C14_replay_terminates_refuted.

(** ** C15.  Application secrets. *)
(** Content opens with the key derived from the same epoch key, reference and predecessors. *)
Theorem C15_round_trip k n n' ref preds h h' m :
  content_decrypt (app_encrypt (derive_application_secret k n ref preds h) m)
    (as_key (derive_application_secret k n' ref preds h')) = Some m.
Proof. exact (app_round_trip_lemma k n n' ref preds h h' m). Qed.
Print Assumptions C15_round_trip.

(** Keys coincide exactly for the same epoch key, reference and predecessors. *)
Theorem C15_key_bound k n ref preds h k' n' ref' preds' h' :
  as_key (derive_application_secret k n ref preds h) = as_key (derive_application_secret k' n' ref' preds' h') <->
  k = k' /\ ref = ref' /\ preds = preds'.
Proof. exact (app_key_bound_lemma k n ref preds h k' n' ref' preds' h'). Qed.
Print Assumptions C15_key_bound.

(** Any other key opens nothing. *)
Theorem C15_wrong_key s m k n ref preds h :
  as_key (derive_application_secret k n ref preds h) <> as_key s ->
  content_decrypt (app_encrypt s m) (as_key (derive_application_secret k n ref preds h)) = None.
Proof. exact (app_wrong_key_lemma s m k n ref preds h). Qed.
Print Assumptions C15_wrong_key.

(** A replica only ever offers a key bound to the ciphertext's own reference and predecessors. *)
Theorem C15_decryption_key_bound ro c e c' key :
  decryption_key_for ro c e = (c', Ok key) -> exists k, key = AppKey k (ec_preds e) (ec_ref e).
Proof. exact (decryption_key_bound_lemma ro c e c' key). Qed.
Print Assumptions C15_decryption_key_bound.

(** The update operation a ciphertext names is not authenticated: a replica that decrypts an
    altered copy then makes secrets naming an operation that does not exist. *)
Theorem C15_epoch_field_refuted :
  exists n r c e e' c1 key c2 s o, net_reachable asc_h asc_r n /\ n_reps n !! r = Some c /\
    e ∈ n_cts n /\ same_but_op e e' /\ g_ops (c_graph c) !! ec_op e' = None /\
    decryption_key_for (asc_r r) c e' = (c1, Ok key) /\ content_decrypt e' key = Some (ct_plain (ec_cipher e)) /\
    new_app_secret_for (asc_h r) (asc_r r) c1 8 [5] [] 24 104 [61;62;63] = (c2, Ok (s, o)) /\
    g_ops (c_graph c2) !! as_op s = None.
Proof. exact epoch_field_refuted_lemma. Qed.
Print Assumptions C15_epoch_field_refuted.
