(** Specification of left-balanced complete binary trees, independent of the
    bit arithmetic in the model.

    The nodes of a complete binary tree are numbered in order (left subtree, node,
    right subtree).  A node is determined by its level [k] (leaves have level 0)
    and its position [j] among the nodes of that level, from the left. *)
From Coq Require Import Arith List.
Import ListNotations.

(** In-order number of the [j]-th node of level [k]. *)
Definition node (k j : nat) : nat := 2 ^ k * (2 * j + 1) - 1.

(** Node [x] lies in the subtree of the [j]-th node of level [k]: the subtree is an
    interval of [2^(k+1) - 1] consecutive numbers. *)
Definition in_subtree (x k j : nat) : Prop :=
  2 ^ (k + 1) * j <= x /\ x + 1 < 2 ^ (k + 1) * (j + 1).

(** [a] is an ancestor of [x] or [x] itself. *)
Definition covers (a x : nat) : Prop :=
  exists k j, a = node k j /\ in_subtree x k j.

(** A complete binary tree of height [h] has [2^(h+1) - 1] nodes and root [node h 0]. *)
Definition complete_size (h : nat) : nat := 2 ^ (h + 1) - 1.
