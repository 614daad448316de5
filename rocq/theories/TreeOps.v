(** Histories of operations on one key tree: the uncontended paths of
    beekem/src/cgka.rs, where the operation graph has a single head, so no replay
    happens. *)
From stdpp Require Import base list gmap.
From Verif Require Import ResModel KeysModel TreeModel TreeSpec.

(** cgka.rs 239-266 [add] (tree part), 283-309 [remove] (tree part) and 316-360
    [update] (tree part, for a contained member; only the entry inserted by line 343 is
    read by [encrypt_path]). *)
Definition op_step (t : tree) (op : tree_op) : res (tree * option path_change) :=
  match op with
  | OAdd id pk =>
      if contains_id t id then Ok (t, None)
      else let! (t, _) := push_leaf t id (SKey pk) in Ok (t, None)
  | ORemove id =>
      if contains_id t id then
        if member_count t =? 1 then Err ERemoveLastMember
        else let! (t, _) := remove_id t id in Ok (t, None)
      else Ok (t, None)
  | OUpdate id sk rng =>
      let! (t, _, pc, _, _) := encrypt_path t id (pub sk) {[ pub sk := sk ]} rng in
      Ok (t, Some pc)
  end.

(** Run a history; the published path changes are collected in order. *)
Fixpoint run (t : tree) (ops : list tree_op) : res (tree * list path_change) :=
  match ops with
  | [] => Ok (t, [])
  | op :: rest =>
      let! (t, o) := op_step t op in
      let! (t, pcs) := run t rest in
      Ok (t, match o with Some pc => pc :: pcs | None => pcs end)
  end.
