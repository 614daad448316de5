(** Groups that only grow: what their key trees should hold. *)
From stdpp Require Import base list gmap.
From Verif Require Import ResModel KeysModel TreeModel TreeSpec OpsModel CgkaModel NetSpec.

(** Nobody is ever removed, and nobody is added twice (not even by two replicas that do
    not know of each other). *)
Definition only_grows (ops : gmap digest signed_op) : Prop :=
  (forall h o id i ks ps, ops !! h = Some o -> so_op o <> CRemove id i ks ps) /\
  (forall h h' o o' id pk pk' i i' ps ps' qs qs', ops !! h = Some o -> ops !! h' = Some o' ->
    so_op o = CAdd id pk i ps qs -> so_op o' = CAdd id pk' i' ps' qs' -> h = h').

(** Operation [op] gives member [id] the key [k]: it adds the member with this key, or it
    is an update of the member to this key. *)
Definition gives_key (op : cgka_op) (id : member_id) (k : share_key) : Prop :=
  match op with
  | CAdd id' pk _ _ _ => id' = id /\ pk = k
  | CUpdate _ pc _ => pc_leaf_id pc = id /\ k ∈ nk_keys (pc_leaf_pk pc)
  | CRemove _ _ _ _ => False
  end.

(** The tree is that of the members added by the operations [ops]. *)
Record members_tree (ops : gmap digest signed_op) (t : tree) : Prop := {
  (** whoever was added has a leaf, and nobody else *)
  mt_members id : (exists i nk, leafv t i = Some (LeafNode id nk)) <->
    (exists h o pk i ps qs, ops !! h = Some o /\ so_op o = CAdd id pk i ps qs);
  (** only one *)
  mt_once i j l l' : leafv t i = Some l -> leafv t j = Some l' -> l_id l = l_id l' -> i = j;
  (** and it is the one looked up *)
  mt_lookup id i : t_ids t !! id = Some i <-> exists nk, leafv t i = Some (LeafNode id nk);
  (** with keys of that member only *)
  mt_keys i l k : leafv t i = Some l -> k ∈ nk_keys (l_pk l) -> exists h o, ops !! h = Some o /\ gives_key (so_op o) (l_id l) k;
  (** the leaves stand in a row, and the next member goes right after them *)
  mt_row i : (exists l, leafv t i = Some l) <-> i < t_next t
}.
