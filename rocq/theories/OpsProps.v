(** Properties of the operation graph and its replay order (C12, C13). *)
From Coq Require Import Arith.
From stdpp Require Import base list gmap relations sorting.
From Verif Require Import ResModel KeysModel TreeModel OpsModel OpsSpec OpsInv OpsProofs OpsEpochs OpsPropsProofs.

(** ** C12: heads *)

(** The heads are exactly the known operations that no known operation names as a
    predecessor. *)
Theorem heads_exact g : graph_reachable g -> forall h,
  h ∈ g_heads g <-> is_Some (g_ops g !! h) /\ forall k, ~ pred_of g h k.
Proof. exact (heads_exact_lemma g). Qed.
Print Assumptions heads_exact.

(** Every named predecessor is known, nothing precedes itself, and each operation is
    filed under its own digest. *)
Theorem graph_causal g : graph_reachable g ->
  (forall p h, pred_of g p h -> is_Some (g_ops g !! p)) /\ (forall h, ~ before g h h) /\
  (forall h o, g_ops g !! h = Some o -> so_hash o = h).
Proof. exact (graph_causal_lemma g). Qed.
Print Assumptions graph_causal.

(** Every known operation is a head or precedes one. *)
Theorem heads_cover g : graph_reachable g -> forall x, is_Some (g_ops g !! x) ->
  exists h, h ∈ g_heads g /\ rtc (pred_of g) x h.
Proof. exact (some_head_lemma g). Qed.
Print Assumptions heads_cover.

(** Replicas that hold the same operations have the same heads and the same edges,
    however the operations arrived. *)
Theorem heads_function_of_ops g g' : graph_reachable g -> graph_reachable g' -> g_ops g = g_ops g' ->
  g_heads g = g_heads g' /\ g_preds g = g_preds g'.
Proof. exact (same_ops_same_graph_lemma g g'). Qed.
Print Assumptions heads_function_of_ops.

(** The addition heads are exactly the additions no known addition names, provided
    received additions name known operations only (which the code does not check). *)
Theorem add_heads_exact g : honest_adds g -> forall h, h ∈ g_add_heads g <-> latest_add g h.
Proof. exact (add_heads_exact_lemma g). Qed.
Print Assumptions add_heads_exact.

(** Merging graphs breaks the property: merging a graph with an extension of itself keeps
    a head that has a successor. *)
Theorem graph_merge_heads_refuted :
  exists g g', graph_reachable g /\ graph_reachable g' /\ g_ops g ⊆ g_ops g' /\
    graph_merge g g' <> g' /\ exists h k, h ∈ g_heads (graph_merge g g') /\ pred_of (graph_merge g g') h k.
Proof. exact merge_heads_refuted_lemma. Qed.
Print Assumptions graph_merge_heads_refuted.

(** ** C13: replay order *)

(** For any heads, replay visits exactly their ancestry, each operation once and after its
    predecessors, in epochs that are causally ordered. *)
Theorem replay_order_causal g hs : graph_reachable g -> single_root g -> NoDup hs -> hs <> [] ->
  (forall h, h ∈ hs -> is_Some (g_ops g !! h)) ->
  exists epochs, topsort_for_heads g hs = Ok epochs /\ good_replay g hs epochs.
Proof. exact (replay_order_lemma g hs). Qed.
Print Assumptions replay_order_causal.

(** Replicas with the same operations replay them identically, and replay all of them,
    whatever order the operations arrived in and the hash sets iterate in. *)
Theorem replay_function_of_ops g g' order order' :
  graph_reachable g -> graph_reachable g' -> g_ops g = g_ops g' -> single_root g ->
  (forall s, Permutation (order s) (elements s)) -> (forall s, Permutation (order' s) (elements s)) ->
  exists epochs, topsort_graph g order = Ok epochs /\ topsort_graph g' order' = Ok epochs /\
    good_replay g (elements (g_heads g)) epochs /\
    forall o, o ∈ concat epochs <-> g_ops g !! so_hash o = Some o.
Proof. exact (replay_same_lemma g g' order order'). Qed.
Print Assumptions replay_function_of_ops.

(** Operations neither of which precedes the other share an epoch. *)
Theorem concurrent_ops_share_epoch g hs epochs i j e e' o o' : good_replay g hs epochs ->
  epochs !! i = Some e -> epochs !! j = Some e' -> o ∈ e -> o' ∈ e' ->
  ~ before g (so_hash o) (so_hash o') -> ~ before g (so_hash o') (so_hash o) -> i = j.
Proof. exact (concurrent_share_epoch_lemma g hs epochs i j e e' o o'). Qed.
Print Assumptions concurrent_ops_share_epoch.

(** A second operation without predecessors, which is accepted from the network, is
    dropped from the replay as soon as any operation has a predecessor. *)
Theorem replay_complete_refuted :
  exists g order epochs o, graph_reachable g /\ (forall s, Permutation (order s) (elements s)) /\
    topsort_graph g order = Ok epochs /\ g_ops g !! so_hash o = Some o /\ o ∉ concat epochs.
Proof. exact replay_drops_refuted_lemma. Qed.
Print Assumptions replay_complete_refuted.

(** When no operation has a predecessor the order is that of the hash set. *)
Theorem replay_deterministic_refuted :
  exists g order order', graph_reachable g /\ (forall s, Permutation (order s) (elements s)) /\
    (forall s, Permutation (order' s) (elements s)) /\ topsort_graph g order <> topsort_graph g order'.
Proof. exact replay_order_dependent_refuted_lemma. Qed.
Print Assumptions replay_deterministic_refuted.

(** ** The hypotheses are met *)
Example diamond_meets_hypotheses :
  graph_reachable w_diamond /\ graph_reachable w_diamond' /\ g_ops w_diamond = g_ops w_diamond' /\
  single_root w_diamond /\ honest_adds (add_local_op graph_new (w_op 5 10 [])) /\
  topsort_graph w_diamond elements =
    Ok [[w_op 5 10 []]; [w_op 2 30 [5]; w_op 9 20 [5]]; [w_op 7 40 [9; 2]]; [w_op 1 50 [7]]].
Proof.
  split; [apply w_diamond_reachable|]. split; [apply w_diamond_reachable|]. split; [|split; [|split]].
  - cbn. do 2 f_equal. apply insert_commute. discriminate.
  - intros h h' o o' E E' P P'. cbn in E, E'.
    repeat (apply lookup_insert_Some in E as [[<- <-]|[_ E]];
      [try (apply (f_equal elements) in P; vm_compute in P; discriminate)|]); [|rewrite lookup_empty in E; discriminate].
    repeat (apply lookup_insert_Some in E' as [[<- <-]|[_ E']];
      [try (apply (f_equal elements) in P'; vm_compute in P'; discriminate)|]); [|rewrite lookup_empty in E'; discriminate].
    reflexivity.
  - apply ha_first; reflexivity.
  - vm_compute. reflexivity.
Qed.
