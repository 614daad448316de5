(** Proofs behind CgkaProps and NetProps. *)
From Coq Require Import Arith Lia.
From stdpp Require Import base list gmap relations.
From Verif Require Import ResModel KeysModel TreeMathModel TreeMathSpec TreeMathProofs TreeModel OpsModel OpsSpec OpsInv
  CgkaModel CgkaSpec CgkaProofs NetSpec NetRun.

(** ** Causal delivery *)
Lemma merge_missing_lemma ho ro c op p : g_ops (c_graph c) !! so_hash op = None -> p ∈ op_preds (so_op op) -> g_ops (c_graph c) !! p = None ->
  merge_concurrent_operation ho ro c op = (c, Err EOutOfOrderOperation).
Proof.
  intros F Hp N. destruct (merge_concurrent_operation ho ro c op) as [c' r] eqn:Q.
  apply merge_step in Q as (_ & _ & _ & [(K & _)|[(_ & _ & -> & ->)|(_ & K & _)]]).
  - apply contains_op_false in F. congruence.
  - reflexivity.
  - exfalso. unfold contains_predecessors in K. apply bool_decide_eq_true in K.
    specialize (K p Hp). cbn in K. rewrite N in K. destruct K as [? K]. discriminate.
Qed.
(** The operation does not follow everything known here. *)
Definition concurrent_here (c : cgka) (op : signed_op) : Prop := exists h, h ∈ g_heads (c_graph c) /\ h ∉ op_preds (so_op op).
Definition new_with_preds (c : cgka) (op : signed_op) : Prop :=
  g_ops (c_graph c) !! so_hash op = None /\ forall p, p ∈ op_preds (so_op op) -> is_Some (g_ops (c_graph c) !! p).
Lemma merge_concurrent_eq ho ro c op : concurrent_here c op -> new_with_preds c op ->
  merge_concurrent_operation ho ro c op =
  if c_pending c then (set_graph c (add_op (c_graph c) op (op_preds (so_op op))), Ok true)
  else if is_update (so_op op) then
    match apply_operation c op with Ok c => (c, Ok true) | Err e => (c, Err e) | Panic => (c, Panic) | OutOfFuel => (c, OutOfFuel) end
  else (set_graph (set_pending c true) (add_op (c_graph c) op (op_preds (so_op op))), Ok true).
Proof.
  intros (h & H1 & H2) [N P]. unfold merge_concurrent_operation.
  rewrite (proj2 (contains_op_false _ _)) by exact N.
  assert (E1 : contains_predecessors (c_graph c) (op_preds (so_op op)) = true) by (apply bool_decide_eq_true; exact P).
  assert (E2 : heads_contained_in (c_graph c) (op_preds (so_op op)) = false).
  { destruct (heads_contained_in (c_graph c) (op_preds (so_op op))) eqn:E; [|reflexivity]. exfalso. apply H2.
    unfold heads_contained_in in E. apply bool_decide_eq_true in E. apply E in H1. revert H1. try rewrite elem_of_list_to_set. auto. }
  rewrite E1, E2. reflexivity.
Qed.
Lemma merge_concurrent_change ho ro c op op2 : concurrent_here c op -> new_with_preds c op -> is_update (so_op op) = false ->
  exists c1, merge_concurrent_operation ho ro c op = (c1, Ok true) /\
    (concurrent_here c1 op2 -> new_with_preds c1 op2 -> exists c2, merge_concurrent_operation ho ro c1 op2 = (c2, Ok true)).
Proof.
  intros A B U. rewrite merge_concurrent_eq by assumption. rewrite U.
  destruct (c_pending c) eqn:Pc; (eexists; split; [reflexivity|]); intros A2 B2; rewrite merge_concurrent_eq by assumption; cbn; rewrite ?Pc; eauto.
Qed.
Lemma merge_known_lemma ho ro c op : is_Some (g_ops (c_graph c) !! so_hash op) -> merge_concurrent_operation ho ro c op = (c, Ok false).
Proof. intros K. unfold merge_concurrent_operation, contains_op. rewrite bool_decide_eq_true_2 by exact K. reflexivity. Qed.
Lemma merge_accept_lemma ho ro c op c' b : merge_concurrent_operation ho ro c op = (c', Ok b) ->
  g_ops (c_graph c') = (if b then <[so_hash op := op]> (g_ops (c_graph c)) else g_ops (c_graph c)) /\
  (b = true <-> g_ops (c_graph c) !! so_hash op = None) /\
  (b = true -> forall p, p ∈ op_preds (so_op op) -> is_Some (g_ops (c_graph c) !! p)).
Proof.
  intros Q. apply merge_step in Q as (_ & _ & _ & [(K & -> & Q)|[(_ & _ & -> & Q)|(K & P & [[Q G]|[Q _]])]]).
  - injection Q as ->. split; [reflexivity|]. split; [|discriminate]. split; [discriminate|]. intros N. apply contains_op_false in N. congruence.
  - discriminate.
  - injection Q as ->. rewrite G. split; [reflexivity|]. apply contains_op_false in K. split; [tauto|]. intros _ p Hp.
    unfold contains_predecessors in P. apply bool_decide_eq_true in P. exact (P p Hp).
  - exfalso. eapply Q; reflexivity.
Qed.
Lemma merge_fail_lemma ho ro c op c' r : merge_concurrent_operation ho ro c op = (c', r) -> (forall b, r <> Ok b) ->
  c_graph c' = c_graph c.
Proof.
  intros Q N. apply merge_step in Q as (_ & _ & _ & [(_ & -> & _)|[(_ & _ & -> & _)|(_ & _ & [[-> _]|[_ G]])]]); auto.
  exfalso. eapply N; reflexivity.
Qed.
Lemma history_closed_lemma ho ro c h : some_order ho -> cgka_reachable ho ro c -> is_Some (g_ops (c_graph c) !! h) -> ancestors_known (c_graph c) h.
Proof. intros HH R K. eapply ancestors_known_lemma; [eapply cgka_graph_reachable; eauto|exact K]. Qed.
Lemma history_grows_lemma ho ro c c' : cgka_step ho ro c c' -> g_ops (c_graph c) ⊆ g_ops (c_graph c').
Proof. intros S. apply cgka_step_graph in S as (S & _). eapply graph_step_mono; exact S. Qed.

(** ** Application secrets *)
Lemma app_round_trip_lemma k n n' ref preds h h' m :
  content_decrypt (app_encrypt (derive_application_secret k n ref preds h) m) (as_key (derive_application_secret k n' ref preds h')) = Some m.
Proof. unfold content_decrypt. cbn. rewrite decide_True; auto. Qed.
Lemma app_key_bound_lemma k n ref preds h k' n' ref' preds' h' :
  as_key (derive_application_secret k n ref preds h) = as_key (derive_application_secret k' n' ref' preds' h') <->
  k = k' /\ ref = ref' /\ preds = preds'.
Proof. cbn. split; [intros Q; injection Q as <- <- <-; auto|intros (-> & -> & ->); reflexivity]. Qed.
Lemma app_wrong_key_lemma s m k n ref preds h :
  as_key (derive_application_secret k n ref preds h) <> as_key s -> content_decrypt (app_encrypt s m) (as_key (derive_application_secret k n ref preds h)) = None.
Proof. intros N. unfold content_decrypt. cbn in *. rewrite decide_False; [reflexivity|]. intros [Q _]. congruence. Qed.
Lemma decryption_key_bound_lemma ro c e c' key : decryption_key_for ro c e = (c', Ok key) -> exists k, key = AppKey k (ec_preds e) (ec_ref e).
Proof.
  unfold decryption_key_for. destruct (pcs_key_from_hashes _ _ _ _) as [c1 [k|er| |]]; try discriminate.
  intros Q. injection Q as _ <-. exists k. reflexivity.
Qed.

(** ** Witnesses *)
Definition w_base : list action :=
  [AOwner 0 1 [11]; AAdd 0 2 12 101; AUpdate 0 21 102 [31;32;33;34;35]; AJoin 1 1 11 100; AOwner 1 2 [12]; AReceive 1 101; AReceive 1 102].
Definition w_run (l : list action) : network := net_of (run 1 11 100 (w_base ++ l)).
Lemma w_run_reachable l : (match run 1 11 100 (w_base ++ l) with Some _ => true | None => false end) = true -> net_reachable asc_h asc_r (w_run l).
Proof.
  unfold w_run. destruct (run 1 11 100 (w_base ++ l)) as [n|] eqn:E; [|discriminate]. intros _. eapply run_reachable; exact E.
Qed.
Lemma rep_some n r : (match n_reps n !! r with Some _ => true | None => false end) = true -> n_reps n !! r = Some (rep n r).
Proof. unfold rep. destruct (n_reps n !! r); [reflexivity|discriminate]. Qed.

(** Member [id] was added and not removed, as far as [g] knows. *)
Definition is_added (g : graph) (id : member_id) : Prop :=
  exists h pk i ps aps, g_ops g !! h = Some (SignedOp h (CAdd id pk i ps aps)).
Definition is_removed (g : graph) (id : member_id) : Prop :=
  exists h i ks ps, g_ops g !! h = Some (SignedOp h (CRemove id i ks ps)).
Definition removes (id : member_id) (o : signed_op) : bool := match so_op o with CRemove i _ _ _ => i =? id | _ => false end.
Lemma not_removed g id : forallb (fun x => negb (removes id x.2)) (map_to_list (g_ops g)) = true -> ~ is_removed g id.
Proof.
  intros F (h & i & ks & ps & E). apply elem_of_map_to_list in E. rewrite forallb_forall in F. specialize (F (h, SignedOp h (CRemove id i ks ps))).
  cbn in F. rewrite Nat.eqb_refl in F. cbn in F. apply elem_of_list_In in E. specialize (F E). discriminate.
Qed.

(* Alice removes Bob while Bob adds Carol. *)
Definition w_lost : network := w_run [ARemove 0 2 110; AAdd 1 3 13 111; AReceive 0 111; AUpdate 0 22 112 [41;42;43;44;45];
  AJoin 2 1 11 100; AOwner 2 3 [13]; AReceive 2 101; AReceive 2 102; AReceive 2 110; AReceive 2 111; AReceive 2 112].
Lemma add_lost_refuted_lemma : exists n r r' c c' k, net_reachable asc_h asc_r n /\ n_reps n !! r = Some c /\ n_reps n !! r' = Some c' /\
  g_ops (c_graph c) = g_ops (c_graph c') /\
  is_added (c_graph c) (c_owner c) /\ ~ is_removed (c_graph c) (c_owner c) /\
  (forall i l, leaf_at (c_tree c) i = Ok (Some l) -> l_id l <> c_owner c) /\
  (pcs_key_from_tree_root c').2 = Ok k /\ (pcs_key_from_tree_root c).2 = Panic.
Proof.
  exists w_lost, 2, 0, (rep w_lost 2), (rep w_lost 0), 41. split; [apply w_run_reachable; vm_compute; reflexivity|].
  split; [apply rep_some; vm_compute; reflexivity|]. split; [apply rep_some; vm_compute; reflexivity|].
  split; [apply map_to_list_inj; vm_compute; reflexivity|].
  split; [exists 111, 13, 2; do 2 eexists; vm_compute; reflexivity|]. split; [apply not_removed; vm_compute; reflexivity|].
  split; [|split; vm_compute; reflexivity].
  assert (E : t_leaves (c_tree (rep w_lost 2)) = [Some (LeafNode 1 (SKey 22)); None] /\ c_owner (rep w_lost 2) = 3) by (vm_compute; auto).
  destruct E as [E1 E2]. unfold leaf_at. rewrite E1, E2. intros [|[|i]] l Q; cbn in Q; [injection Q as <-; cbn; lia|discriminate|discriminate].
Qed.

(* Alice and Bob both add Carol. *)
Definition w_twice : network := w_run [AAdd 0 3 13 110; AAdd 1 3 14 111; AReceive 0 111; AUpdate 0 22 112 [41;42;43;44;45]].
Lemma add_twice_refuted_lemma : exists n r c i j l l', net_reachable asc_h asc_r n /\ n_reps n !! r = Some c /\ has_single_head (c_graph c) = true /\
  leaf_at (c_tree c) i = Ok (Some l) /\ leaf_at (c_tree c) j = Ok (Some l') /\ i <> j /\ l_id l = l_id l'.
Proof.
  exists w_twice, 0, (rep w_twice 0), 2, 3, (LeafNode 3 (SKey 13)), (LeafNode 3 (SKey 14)). split; [apply w_run_reachable; vm_compute; reflexivity|].
  split; [apply rep_some; vm_compute; reflexivity|]. split; [vm_compute; reflexivity|]. split; [vm_compute; reflexivity|]. split; [vm_compute; reflexivity|].
  split; [lia|reflexivity].
Qed.

(* Alice and Bob both remove Carol. *)
Definition w_both : network := w_run [AAdd 0 3 13 103; AReceive 1 103; ARemove 0 3 110; ARemove 1 3 111; AReceive 0 111].
(* Alice and Bob remove each other. *)
Definition w_mutual : network := w_run [ARemove 0 2 110; ARemove 1 1 111; AReceive 0 111].
Lemma replay_fails_refuted_lemma : exists n n' r c c', net_reachable asc_h asc_r n /\ net_reachable asc_h asc_r n' /\
  n_reps n !! r = Some c /\ n_reps n' !! r = Some c' /\
  (forall sk h rng, (cgka_update (asc_h r) (asc_r r) c sk h rng).2 = Err EIdentifierNotFound) /\
  (forall sk h rng, (cgka_update (asc_h r) (asc_r r) c' sk h rng).2 = Err ERemoveLastMember).
Proof.
  exists w_both, w_mutual, 0, (rep w_both 0), (rep w_mutual 0). split; [apply w_run_reachable; vm_compute; reflexivity|].
  split; [apply w_run_reachable; vm_compute; reflexivity|]. split; [apply rep_some; vm_compute; reflexivity|]. split; [apply rep_some; vm_compute; reflexivity|].
  assert (E : maybe_replay (asc_h 0) (asc_r 0) (rep w_both 0) = Err EIdentifierNotFound) by (vm_compute; reflexivity).
  assert (E' : maybe_replay (asc_h 0) (asc_r 0) (rep w_mutual 0) = Err ERemoveLastMember) by (vm_compute; reflexivity).
  unfold cgka_update. rewrite E, E'. auto.
Qed.

(* Alice removes Bob while Bob adds Carol, who then updates. *)
Definition w_hang : network := w_run [ARemove 0 2 110; AAdd 1 3 13 111; AJoin 2 1 11 100; AOwner 2 3 [13]; AReceive 2 101; AReceive 2 102; AReceive 2 111;
  AUpdate 2 23 112 [51;52;53;54]; AReceive 0 111; AReceive 0 112].
Lemma walk_past j : 2 <= j -> forall f, direct_path_loop f (node j 0) 1 = None.
Proof.
  assert (N : forall j, 2 <= j -> node j 0 <> 1).
  { intros i L. unfold node. assert (2 ^ 2 <= 2 ^ i) by (apply Nat.pow_le_mono_r; lia). cbn [Nat.pow] in H. lia. }
  intros L f. revert j L. induction f as [|f IH]; intros j L; cbn [direct_path_loop]; rewrite (proj2 (Nat.eqb_neq _ _)) by (apply N, L); [reflexivity|].
  rewrite parent_node. change (0 / 2) with 0. rewrite IH by lia. reflexivity.
Qed.
Lemma walk_hangs f : direct_path_loop f (leaf_to_tree 2) (root 3) = None.
Proof.
  change (root 3) with 1. change (leaf_to_tree 2) with 4. destruct f as [|[|f]]; [reflexivity|reflexivity|].
  cbn [direct_path_loop]. change (4 =? 1) with false. change (parent 4) with 5. change (5 =? 1) with false. cbv iota. change (parent 5) with (node 2 0).
  rewrite walk_past by lia. reflexivity.
Qed.
Lemma replay_hangs_refuted_lemma : exists n r c, net_reachable asc_h asc_r n /\ n_reps n !! r = Some c /\
  maybe_replay (asc_h r) (asc_r r) c = OutOfFuel /\ (forall fuel, direct_path_loop fuel (leaf_to_tree 2) (root 3) = None).
Proof.
  exists w_hang, 0, (rep w_hang 0). split; [apply w_run_reachable; vm_compute; reflexivity|]. split; [apply rep_some; vm_compute; reflexivity|].
  split; [vm_compute; reflexivity|apply walk_hangs].
Qed.

(* A ciphertext whose epoch field was changed. *)
Definition w_cipher : network := w_run [AEncrypt 0 7 [1;2;3] [] 22 103 [41;42;43;44]].
Definition e_dummy : encrypted_content := Encrypted (Siv 0 []) (Aead (AppKey 0 [] 0) (Siv 0 []) []) 0 0 0 [].
Definition w_sent : encrypted_content := default e_dummy (n_cts w_cipher !! 0).
Definition w_tampered : encrypted_content :=
  Encrypted (ec_nonce w_sent) (ec_cipher w_sent) (ec_pcs w_sent) 999 (ec_ref w_sent) (ec_preds w_sent).
Definition same_but_op (e e' : encrypted_content) : Prop :=
  ec_nonce e = ec_nonce e' /\ ec_cipher e = ec_cipher e' /\ ec_pcs e = ec_pcs e' /\ ec_ref e = ec_ref e' /\ ec_preds e = ec_preds e'.
Lemma epoch_field_refuted_lemma : exists n r c e e' c1 key c2 s o, net_reachable asc_h asc_r n /\ n_reps n !! r = Some c /\
  e ∈ n_cts n /\ same_but_op e e' /\ g_ops (c_graph c) !! ec_op e' = None /\
  decryption_key_for (asc_r r) c e' = (c1, Ok key) /\ content_decrypt e' key = Some (ct_plain (ec_cipher e)) /\
  new_app_secret_for (asc_h r) (asc_r r) c1 8 [5] [] 24 104 [61;62;63] = (c2, Ok (s, o)) /\
  g_ops (c_graph c2) !! as_op s = None.
Proof.
  pose (d := decryption_key_for (asc_r 1) (rep w_cipher 1) w_tampered).
  pose (a := new_app_secret_for (asc_h 1) (asc_r 1) d.1 8 [5] [] 24 104 [61;62;63]).
  pose (k := match d.2 with Ok k => k | _ => AppKey 0 [] 0 end).
  pose (so := match a.2 with Ok x => x | _ => (derive_application_secret 0 (Siv 0 []) 0 [] 0, None) end).
  exists w_cipher, 1, (rep w_cipher 1), w_sent, w_tampered, d.1, k, a.1, so.1, so.2.
  split; [apply w_run_reachable; vm_compute; reflexivity|]. split; [apply rep_some; vm_compute; reflexivity|].
  split. { assert (E : n_cts w_cipher !! 0 = Some w_sent) by (vm_compute; reflexivity). eapply elem_of_list_lookup_2, E. }
  split; [repeat split|]. split; [vm_compute; reflexivity|].
  split. { change (d = (d.1, Ok k)). assert (E : d.2 = Ok k) by (vm_compute; reflexivity). destruct d as [d1 d2]. cbn [fst snd] in *. rewrite E. reflexivity. }
  split; [vm_compute; reflexivity|].
  split; [|vm_compute; reflexivity].
  change (a = (a.1, Ok (so.1, so.2))). assert (E : a.2 = Ok (so.1, so.2)) by (vm_compute; reflexivity). destruct a as [a1 a2]. cbn [fst snd] in *. rewrite E. reflexivity.
Qed.

(* Alice and Bob update concurrently and receive each other's update. *)
Definition w_updates : network := w_run [AUpdate 0 25 110 [41;42;43]; AUpdate 1 26 111 [51;52;53]; AReceive 0 111; AReceive 1 110].
Lemma several_heads_refuted_lemma : exists n r r' c c', net_reachable asc_h asc_r n /\ n_reps n !! r = Some c /\ n_reps n !! r' = Some c' /\
  g_ops (c_graph c) = g_ops (c_graph c') /\ g_ops (c_graph c) = n_ops n /\ c_tree c <> c_tree c'.
Proof.
  exists w_updates, 0, 1, (rep w_updates 0), (rep w_updates 1). split; [apply w_run_reachable; vm_compute; reflexivity|].
  split; [apply rep_some; vm_compute; reflexivity|]. split; [apply rep_some; vm_compute; reflexivity|].
  split; [apply map_to_list_inj; vm_compute; reflexivity|]. split; [apply map_to_list_inj; vm_compute; reflexivity|].
  assert (N : t_inner (c_tree (rep w_updates 0)) <> t_inner (c_tree (rep w_updates 1))) by (vm_compute; discriminate).
  intros E. apply N. f_equal. exact E.
Qed.

(* After the concurrent updates somebody updates again; everybody receives everything;
   Alice sends a message that Bob reads. *)
Definition w_settled : network := w_run [AUpdate 0 25 110 [41;42;43]; AUpdate 1 26 111 [51;52;53]; AReceive 0 111; AReceive 1 110;
  AUpdate 1 27 112 [61;62;63]; AReceive 0 112; AEncrypt 0 7 [1;2;3] [] 28 113 [71;72;73]].
