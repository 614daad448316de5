(** Model of beekem/src/treemath.rs.

    Representation.  A [TreeNodeIndex] is represented by the number its [u32()]
    method returns (treemath.rs 191-197): leaf [i] is the even number [2*i]
    ([LeafNodeIndex::to_tree_index], 54-57), inner node [i] is the odd number
    [2*i+1] ([InnerNodeIndex::to_tree_index], 113-116).  Indices are unbounded
    naturals instead of [u32]; [TreeMathProps.from_leaf_count_fits] gives the
    range in which no 32-bit computation overflows. *)
From Coq Require Import Arith List Bool.
Import ListNotations.

(** treemath.rs 54-57, 113-116 and 183-189 ([LeafNodeIndex::to_tree_index],
    [InnerNodeIndex::to_tree_index], [TreeNodeIndex::new]). *)
Definition leaf_to_tree (i : nat) : nat := 2 * i.
Definition inner_to_tree (i : nat) : nat := 2 * i + 1.
Definition is_leaf_idx (x : nat) : bool := Nat.even x.
(** treemath.rs 59-63 and 118-123 ([from_tree_index]): [x/2], resp. [(x-1)/2]. *)
Definition leaf_from_tree (x : nat) : nat := x / 2.
Definition inner_from_tree (x : nat) : nat := (x - 1) / 2.

(** [let mut k = 0; while p(k) { k += 1 }], the loop used by [log2] (298-301) and
    [level] (310-313).  [None] means the loop did not stop within the fuel. *)
Fixpoint count_while (fuel : nat) (p : nat -> bool) (k : nat) : option nat :=
  match fuel with
  | 0 => None
  | S f => if p k then count_while f p (S k) else Some k
  end.

(** treemath.rs 294-303: [while (x >> k) > 0 { k += 1 }; k - 1].
    The fuel [S x] always suffices ([TreeMathProofs.log2_spec]). *)
Definition log2 (x : nat) : nat :=
  if x =? 0 then 0
  else match count_while (S x) (fun k => 0 <? Nat.shiftr x k) 0 with
       | Some k => k - 1
       | None => 0
       end.

(** treemath.rs 305-315: [while ((x >> k) & 0x01) == 1 { k += 1 }].
    The fuel [S x] always suffices ([TreeMathProofs.level_node]). *)
Definition level (x : nat) : nat :=
  if Nat.land x 1 =? 0 then 0
  else match count_while (S x) (fun k => Nat.land (Nat.shiftr x k) 1 =? 1) 0 with
       | Some k => k
       | None => 0
       end.

(** treemath.rs 219-222: [TreeSize::new]. *)
Definition size_new (nodes : nat) : nat := Nat.shiftl 1 (log2 nodes + 1) - 1.
(** treemath.rs 225-227: [TreeSize::from_leaf_count]. *)
Definition size_from_leaf_count (n : nat) : nat := size_new (n * 2).
(** treemath.rs 230-232. *)
Definition leaf_count (size : nat) : nat := size / 2 + 1.
(** treemath.rs 235-237. *)
Definition inner_node_count (size : nat) : nat := size / 2.
(** treemath.rs 253-255. *)
Definition size_inc (size : nat) : nat := size * 2 + 1.

(** treemath.rs 317-321. *)
Definition root (size : nat) : nat := Nat.shiftl 1 (log2 size) - 1.

(** treemath.rs 323-329 (the argument is the tree index of an inner node). *)
Definition left (x : nat) : nat := Nat.lxor x (Nat.shiftl 1 (level x - 1)).
(** treemath.rs 331-337. *)
Definition right (x : nat) : nat := Nat.lxor x (Nat.shiftl 3 (level x - 1)).

(** treemath.rs 341-347. *)
Definition parent (x : nat) : nat :=
  let k := level x in
  let b := Nat.land (Nat.shiftr x (k + 1)) 1 in
  Nat.lxor (Nat.lor x (Nat.shiftl 1 k)) (Nat.shiftl b (k + 1)).

(** treemath.rs 355-362. *)
Definition sibling (x : nat) : nat :=
  let p := parent x in
  match x ?= p with
  | Lt => right p
  | Gt => left p
  | Eq => left p
  end.

(** treemath.rs 366-377: [while x != r { push(parent x); x = parent x }].
    [None] means the loop did not reach [r] within the fuel. *)
Fixpoint direct_path_loop (fuel : nat) (x r : nat) : option (list nat) :=
  if x =? r then Some []
  else match fuel with
       | 0 => None
       | S f =>
           match direct_path_loop f (parent x) r with
           | Some d => Some (parent x :: d)
           | None => None
           end
       end.
(** The fuel [size] is more than the depth of a tree with [size] nodes. *)
Definition direct_path (x size : nat) : option (list nat) :=
  direct_path_loop size x (root size).
