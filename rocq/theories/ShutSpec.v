(** Members that change their keys at the same time: who cannot read. *)
From stdpp Require Import base list gmap relations.
From Verif Require Import ResModel KeysModel TreeModel OpsModel CgkaModel NetSpec SecrecySpec ReadSpec TurnSecretSpec.

(** The member an operation is about: it is added, removed or updates its keys. *)
Definition about (op : cgka_op) : member_id :=
  match op with CAdd id _ _ _ _ => id | CRemove id _ _ _ => id | CUpdate id _ _ => id end.

(** If there is nobody else a new secret of an update has to be sealed for, it is sealed
    once, with a key pair that is made for this purpose only. *)
Definition thrown_keys (op : cgka_op) : list share_key :=
  match op with
  | CUpdate _ pc _ =>
      concat (map (fun n => concat (map (fun v => match map_to_list (v_sk v) with [(_, e)] => [es_paired e] | _ => [] end) n.2)) (pc_path pc))
  | _ => []
  end.
(** The key pairs that come with an operation: the member's new key and, with an update,
    those made for the inner nodes and for the purpose above. *)
Definition secrets (op : cgka_op) : list share_key := op_keys op ++ thrown_keys op.
(** Random keys: an update makes different ones, and they come with no other operation. *)
Record fresh_secrets (ops : gmap digest signed_op) : Prop := {
  fs_once x o : ops !! x = Some o -> NoDup (secrets (so_op o));
  fs_apart x y o o' k : ops !! x = Some o -> ops !! y = Some o' ->
    k ∈ inner_keys (so_op o) ++ thrown_keys (so_op o) -> k ∈ secrets (so_op o') -> x = y
}.

(** [x] had been made when [h] had been made, to the knowledge of the maker of [h]. *)
Definition by_then (ops : gmap digest signed_op) (h x : digest) : Prop := x = h \/ came_before ops x h.
(** No operation about the same member followed [x] by then. *)
Definition in_force (ops : gmap digest signed_op) (h x : digest) : Prop :=
  by_then ops h x /\
  forall y o o', by_then ops h y -> ops !! x = Some o -> ops !! y = Some o' -> about (so_op o') = about (so_op o) -> ~ came_before ops x y.
