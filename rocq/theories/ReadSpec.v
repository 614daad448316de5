(** Members that change their keys at the same time: when everybody can go on reading. *)
From stdpp Require Import base list gmap relations.
From Verif Require Import ResModel KeysModel TreeModel TreeSpec OpsModel CgkaModel NetSpec GrowSpec.

(** Operation [p] is among the operations that [h] was made on top of; [p] came before [h]. *)
Definition named (ops : gmap digest signed_op) (p h : digest) : Prop := exists o, ops !! h = Some o /\ p ∈ op_preds (so_op o).
Definition came_before (ops : gmap digest signed_op) : digest -> digest -> Prop := tc (named ops).
(** Neither was made without knowledge of the other. *)
Definition in_order (ops : gmap digest signed_op) (x y : digest) : Prop := x = y \/ came_before ops x y \/ came_before ops y x.

(** Whoever adds or removes a member knows of every operation made so far, and every later
    one is made with knowledge of the change. *)
Definition changes_in_turn (ops : gmap digest signed_op) : Prop :=
  forall m o x, ops !! m = Some o -> is_update (so_op o) = false -> is_Some (ops !! x) -> in_order ops x m.

(** A member makes each update on top of its earlier ones (it does not act from two
    devices that do not know of each other). *)
Definition one_writer (ops : gmap digest signed_op) : Prop :=
  forall x y o o' id pc pc' ps ps', ops !! x = Some o -> ops !! y = Some o' ->
    so_op o = CUpdate id pc ps -> so_op o' = CUpdate id pc' ps' -> in_order ops x y.

(** The public keys that an operation brings into the group, and those of them that are
    for the inner nodes of the tree. *)
Definition inner_keys (op : cgka_op) : list share_key :=
  match op with
  | CUpdate _ pc _ => concat (map (fun n => map v_pk n.2) (pc_path pc))
  | _ => []
  end.
Definition op_keys (op : cgka_op) : list share_key :=
  match op with
  | CAdd _ pk _ _ _ => [pk]
  | CRemove _ _ _ _ => []
  | CUpdate _ pc _ => nk_keys (pc_leaf_pk pc) ++ inner_keys op
  end.
(** The keys that an update makes for the inner nodes come with no other operation. *)
Definition fresh_keys (ops : gmap digest signed_op) : Prop :=
  forall x y o o' k, ops !! x = Some o -> ops !! y = Some o' -> k ∈ inner_keys (so_op o) -> k ∈ op_keys (so_op o') -> x = y.

(** A group in which changes of members take turns, whose members each act from one
    device, and whose keys are fresh. *)
Record orderly (ops : gmap digest signed_op) : Prop := {
  od_turn : changes_in_turn ops;
  od_one : one_writer ops;
  od_fresh : fresh_keys ops
}.

(** The replica has the secret of every key that these operations give to [m]; to its owner. *)
Definition holds_for (ops : gmap digest signed_op) (c : cgka) (m : member_id) : Prop :=
  forall x o k, ops !! x = Some o -> gives_key (so_op o) m k -> is_Some (c_sks c !! k).
Definition holds_own (ops : gmap digest signed_op) (c : cgka) : Prop := holds_for ops c (c_owner c).

(** Among the operations that satisfy [P], one adds [id], for leaf [i], and all that remove
    [id] came before it. *)
Definition seat (ops : gmap digest signed_op) (P : digest -> Prop) (id : member_id) (i : nat) : Prop :=
  exists a o pk ps qs, P a /\ ops !! a = Some o /\ so_op o = CAdd id pk i ps qs /\
    forall r o' j ks ps', P r -> ops !! r = Some o' -> so_op o' = CRemove id j ks ps' -> came_before ops r a.
(** [id] is a member: it was added and not removed since. *)
Definition member (ops : gmap digest signed_op) (id : member_id) : Prop := exists i, seat ops (fun x => is_Some (ops !! x)) id i.
(** [id] was a member when operation [h] had been made, to the knowledge of its maker. *)
Definition member_at (ops : gmap digest signed_op) (id : member_id) (h : digest) : Prop :=
  exists i, seat ops (fun x => x = h \/ came_before ops x h) id i.

(** The key that an update puts at the root: the last one on its path. *)
Definition top_key (op : cgka_op) : option share_key :=
  match op with
  | CUpdate _ pc _ => match last (pc_path pc) with Some (_, [v]) => Some (v_pk v) | _ => None end
  | _ => None
  end.

(** The tree is that of the members according to [ops]. *)
Record roster_tree (ops : gmap digest signed_op) (t : tree) : Prop := {
  (** members have a leaf, and nobody else *)
  rt_members id : (exists i nk, leafv t i = Some (LeafNode id nk)) <-> member ops id;
  (** only one *)
  rt_once i j l l' : leafv t i = Some l -> leafv t j = Some l' -> l_id l = l_id l' -> i = j;
  (** and it is the one looked up *)
  rt_lookup id i : t_ids t !! id = Some i <-> exists nk, leafv t i = Some (LeafNode id nk);
  (** with one key, which is the member's *)
  rt_keys i l : leafv t i = Some l -> exists k h o, l_pk l = SKey k /\ ops !! h = Some o /\ gives_key (so_op o) (l_id l) k
}.
