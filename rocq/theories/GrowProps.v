(** C14, positive part: a group that only grows (nobody is removed, nobody is added twice,
    see [GrowSpec]).  However the replicas make and exchange their operations, concurrent
    additions and updates never make anything fail or get lost. *)
From Coq Require Import Arith.
From stdpp Require Import base list gmap.
From Verif Require Import ResModel KeysModel TreeModel TreeSpec OpsModel OpsSpec CgkaModel CgkaSpec NetSpec NetRun CgkaPropsProofs
  GrowSpec GrowPropsProofs.

Section net.
Context (horder : nat -> gset digest -> list digest).
Context (rorder : nat -> gset (member_id * nat) -> list (member_id * nat)).
Context (HH : forall r, some_order (horder r)) (HR : forall r, some_order (rorder r)).

(** Replaying the history always works.  The tree it gives holds everybody added so far,
    once, with keys of their own. *)
Theorem C14_grow_replay_partial n r c : net_reachable horder rorder n -> only_grows (n_ops n) -> n_reps n !! r = Some c ->
  exists c1, maybe_replay (horder r) (rorder r) c = Ok c1 /\ members_tree (g_ops (c_graph c)) (c_tree c1).
Proof. exact (grow_replay_lemma horder rorder HH HR n r c). Qed.

(** So does the tree of a replica whose operations have one head, however it got there. *)
Theorem C14_grow_settled_partial n r c : net_reachable horder rorder n -> only_grows (n_ops n) -> n_reps n !! r = Some c ->
  has_single_head (c_graph c) = true -> members_tree (g_ops (c_graph c)) (c_tree c).
Proof. exact (grow_head_lemma horder rorder HH HR n r c). Qed.

(** Any operation made by any replica can be received as soon as its predecessors have
    been: it is never refused, also while others are concurrent with it. *)
Theorem C14_grow_receive_partial n r c h op : net_reachable horder rorder n -> only_grows (n_ops n) -> n_reps n !! r = Some c ->
  n_ops n !! h = Some op -> (forall p, p ∈ op_preds (so_op op) -> is_Some (g_ops (c_graph c) !! p)) ->
  exists c', merge_concurrent_operation (horder r) (rorder r) c op = (c', Ok (negb (contains_op (c_graph c) h))) /\
    g_ops (c_graph c') = <[h := op]> (g_ops (c_graph c)).
Proof. exact (grow_receive_lemma horder rorder HH HR n r c h op). Qed.

(** Somebody nobody has added yet can be added by any replica at any time, and is then in
    the tree together with all the others. *)
Theorem C14_grow_add_partial n r c id pk h : net_reachable horder rorder n -> only_grows (n_ops n) -> n_reps n !! r = Some c -> n_ops n !! h = None ->
  (forall x o pk' i ps qs, n_ops n !! x = Some o -> so_op o <> CAdd id pk' i ps qs) -> contains_id (c_tree c) id = false ->
  exists c' op, cgka_add (horder r) (rorder r) c id pk h = (c', Ok (Some op)) /\ g_ops (c_graph c') = <[h := op]> (g_ops (c_graph c)) /\
    gives_key (so_op op) id pk /\ members_tree (g_ops (c_graph c')) (c_tree c').
Proof. exact (grow_add_lemma horder rorder HH HR n r c id pk h). Qed.
End net.
Print Assumptions C14_grow_replay_partial.
Print Assumptions C14_grow_settled_partial.
Print Assumptions C14_grow_receive_partial.
Print Assumptions C14_grow_add_partial.

(** Alice adds Carol and updates while Bob adds Dave and updates; Alice hears of it all. *)
Definition w_grow : network := w_run [AAdd 0 3 13 110; AUpdate 0 22 112 [41;42;43;44;45]; AAdd 1 4 14 111; AUpdate 1 24 113 [51;52;53;54;55];
  AReceive 0 111; AReceive 0 113].
Example w_grow_meets : net_reachable asc_h asc_r w_grow /\ only_grows (n_ops w_grow) /\ n_reps w_grow !! 0 = Some (rep w_grow 0) /\
  has_single_head (c_graph (rep w_grow 0)) = false.
Proof.
  split; [apply w_run_reachable; vm_compute; reflexivity|]. split; [apply grows_b_sound; vm_compute; reflexivity|].
  split; [apply rep_some|]; vm_compute; reflexivity.
Qed.
(** The leaves after the replay: Alice, Bob, Carol and Dave with their latest keys. *)
Example w_grow_leaves : match maybe_replay (asc_h 0) (asc_r 0) (rep w_grow 0) with Ok c => t_leaves (c_tree c) | _ => [] end =
  [Some (LeafNode 1 (SKey 22)); Some (LeafNode 2 (SKey 24)); Some (LeafNode 3 (SKey 13)); Some (LeafNode 4 (SKey 14))].
Proof. vm_compute. reflexivity. Qed.
