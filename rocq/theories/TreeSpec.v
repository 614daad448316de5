(** Specification vocabulary for the key tree, in terms of (level, position)
    coordinates of nodes instead of array indices. *)
From stdpp Require Import base list gmap.
From Verif Require Import ResModel KeysModel TreeModel TreeMathSpec.

(** ** What a tree holds at a position *)

(** The leaf with number [i], if it is not blank. *)
Definition leafv (t : tree) (i : nat) : option leaf_node := mjoin (t_leaves t !! i).
(** What the inner node of level [S k] at position [j] holds, if it is not blank
    (inner nodes are stored in order, without the leaves). *)
Definition innerv (t : tree) (k j : nat) : option store := mjoin (t_inner t !! node k j).

(** The key of the node of level [k] at position [j], if it holds exactly one key. *)
Definition nkey (t : tree) (k j : nat) : option share_key :=
  match k with
  | 0 => match leafv t j with Some (LeafNode _ (SKey p)) => Some p | _ => None end
  | S k' => match innerv t k' j with Some [v] => Some (v_pk v) | _ => None end
  end.

(** Node [(k0, j0)] lies in the subtree of [(k, j)]. *)
Definition below (k0 j0 k j : nat) : Prop := k0 <= k /\ j0 / 2 ^ (k - k0) = j.

(** [(k0, j0)] belongs to the resolution of [(k, j)]: it is one of the highest nodes
    below [(k, j)] that hold a single key. *)
Definition in_resolution (t : tree) (k j k0 j0 : nat) : Prop :=
  below k0 j0 k j /\ is_Some (nkey t k0 j0) /\
  (forall k1 j1, k0 < k1 -> below k0 j0 k1 j1 -> below k1 j1 k j -> nkey t k1 j1 = None).

(** ** The abstract group: who is a member, with which leaf key *)
Notation group := (gmap member_id share_key).

(** Operations on one key tree, in one global order.  The random choices of an update
    are part of the operation: the new leaf secret and the stream of fresh secrets. *)
Inductive tree_op :=
| OAdd (id : member_id) (pk : share_key)
| ORemove (id : member_id)
| OUpdate (id : member_id) (sk : secret_key) (rng : list secret_key).

(** What an operation does to the group. *)
Definition spec_step (g : group) (op : tree_op) : group :=
  match op with
  | OAdd id pk => if decide (is_Some (g !! id)) then g else <[id := pk]> g
  | ORemove id => delete id g
  | OUpdate id sk _ => <[id := pub sk]> g
  end.
