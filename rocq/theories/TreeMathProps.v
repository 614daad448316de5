(** Properties C01, C02, C03: arithmetic of the key tree's node indices. *)
From Coq Require Import Arith List Lia.
From Verif Require Import TreeMathModel TreeMathSpec TreeMathProofs.
Import ListNotations.

(** C01. *)
Theorem tree_navigation_laws : forall x, Nat.odd x = true ->
  left x < x < right x /\ parent (left x) = x /\ parent (right x) = x /\
  sibling (left x) = right x /\ sibling (right x) = left x /\
  level x = S (level (left x)) /\ level x = S (level (right x)).
Proof. exact navigation_laws. Qed.
Print Assumptions tree_navigation_laws.

Example navigation_example : Nat.odd 11 = true /\ left 11 = 9 /\ right 11 = 13 /\ parent 11 = 7.
Proof. vm_compute. auto. Qed.

(** C01: every index is the [j]-th node of some level [k], and the code's functions act
    on [(k, j)] as they should. *)
Theorem tree_navigation_coordinates : forall x, exists k j, x = node k j /\
  level x = k /\ parent x = node (S k) (j / 2) /\
  (forall k', k = S k' -> left x = node k' (2 * j) /\ right x = node k' (2 * j + 1)).
Proof.
  intros x. destruct (node_exists x) as (k & j & ->). exists k, j.
  rewrite level_node, parent_node. repeat split; subst; auto using left_node, right_node.
Qed.
Print Assumptions tree_navigation_coordinates.

(** C01: a subtree is the interval of its left subtree, the node and its right subtree. *)
Theorem subtree_is_split_by_children : forall x k j y, x = node (S k) j ->
  in_subtree y (S k) j <->
  (exists l, left x = node k l /\ in_subtree y k l) \/ y = x \/
  (exists r, right x = node k r /\ in_subtree y k r).
Proof.
  intros x k j y ->. rewrite subtree_split, left_node, right_node. split.
  - intros [H|[H|H]]; eauto.
  - intros [(l & E & H)|[H|(r & E & H)]]; auto.
    + apply node_inj in E as [_ <-]. auto.
    + apply node_inj in E as [_ <-]. auto.
Qed.
Print Assumptions subtree_is_split_by_children.

(** C02: the walk to the root terminates, and yields the proper ancestors bottom-up. *)
Theorem direct_path_is_ancestors : forall h x,
  x < complete_size h ->
  exists p, direct_path x (complete_size h) = Some p /\
    length p = h - level x /\
    (forall a, In a p <-> covers a x /\ a <> x /\ a < complete_size h) /\
    (forall i a, nth_error p i = Some a -> level a = level x + i + 1) /\
    last (x :: p) 0 = root (complete_size h).
Proof. exact direct_path_correct. Qed.
Print Assumptions direct_path_is_ancestors.

Example direct_path_example :
  10 < complete_size 3 /\ direct_path 10 (complete_size 3) = Some [9; 11; 7].
Proof. vm_compute. split; [lia|reflexivity]. Qed.

(** C03: [TreeSize::new] gives the smallest complete tree with at least [n] nodes. *)
Theorem tree_size_new_least : forall n, 1 <= n ->
  (exists h, size_new n = complete_size h) /\ n <= size_new n /\
  (forall h, n <= complete_size h -> size_new n <= complete_size h).
Proof.
  intros n Hn. split; [eexists; apply size_new_complete|apply size_new_least, Hn].
Qed.
Print Assumptions tree_size_new_least.

(** C03: a tree made for [n] leaves is complete, and leaf indices [0..n] are in bounds. *)
Theorem tree_size_for_leaves : forall n, 1 <= n ->
  (exists h, size_from_leaf_count n = complete_size h /\
             leaf_count (size_from_leaf_count n) = 2 ^ h) /\
  n < leaf_count (size_from_leaf_count n) <= 2 * n /\
  leaf_count (size_from_leaf_count n) + inner_node_count (size_from_leaf_count n)
    = size_from_leaf_count n.
Proof.
  intros n Hn. split; [|split; [apply from_leaf_count_bounds, Hn|]].
  - exists (Nat.log2 n + 1). rewrite size_from_leaf_count_complete by exact Hn.
    split; [reflexivity|apply leaf_count_complete].
  - rewrite size_from_leaf_count_complete, leaf_count_complete, inner_count_complete by exact Hn.
    pose proof (complete_size_alt (Nat.log2 n + 1)). pose proof (pow2_pos (Nat.log2 n + 1)). lia.
Qed.
Print Assumptions tree_size_for_leaves.

Example size_examples : map size_from_leaf_count [1; 2; 3; 4; 7; 8] = [3; 7; 7; 15; 15; 31].
Proof. reflexivity. Qed.

(** C03: the requested tree is not always the smallest one with [n] leaves
    (two leaves get a tree with four leaf slots). *)
Theorem tree_size_for_leaves_not_least : exists n h,
  n <= leaf_count (complete_size h) /\ complete_size h < size_from_leaf_count n.
Proof. exists 2, 1. vm_compute. lia. Qed.
Print Assumptions tree_size_for_leaves_not_least.

(** C03: doubling. *)
Theorem tree_size_doubling : forall h,
  size_inc (complete_size h) = complete_size (S h) /\
  leaf_count (size_inc (complete_size h)) = 2 * leaf_count (complete_size h) /\
  left (root (size_inc (complete_size h))) = root (complete_size h) /\
  (forall x, x < complete_size h -> x < size_inc (complete_size h)).
Proof.
  intros h. rewrite size_inc_complete, !leaf_count_complete, !root_complete, left_node, pow2_S.
  repeat split. intros x Hx.
  pose proof (complete_size_alt h). pose proof (complete_size_alt (S h)).
  rewrite pow2_S in H0. lia.
Qed.
Print Assumptions tree_size_doubling.

(** Range in which the real [u32] computations do not overflow: with fewer than
    [2^B] leaves (B = 30 in the code) all indices and sizes stay below [2^(B+2)]. *)
Theorem from_leaf_count_fits : forall n B, 1 <= n < 2 ^ B ->
  n * 2 < 2 ^ (B + 2) /\ size_from_leaf_count n < 2 ^ (B + 1).
Proof.
  intros n B [H1 H2]. rewrite !Nat.pow_add_r.
  rewrite size_from_leaf_count_complete by exact H1.
  pose proof (complete_size_alt (Nat.log2 n + 1)).
  assert (Nat.log2 n < B) by (apply Nat.log2_lt_pow2; lia).
  pose proof (pow2_mono (Nat.log2 n + 1) B ltac:(lia)).
  change (2 ^ 2) with 4. change (2 ^ 1) with 2. lia.
Qed.
Print Assumptions from_leaf_count_fits.
