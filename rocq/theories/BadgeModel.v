(** Asking for the digest of the current key of a document. *)
From stdpp Require Import base list gmap.
From Verif Require Import ResModel KeysModel TreeModel OpsModel CgkaModel.
From Verif Require Import AccessModel GroupModel PrekeyModel HiveModel DocModel.

(** keyhive.rs 690-695 [try_pcs_key_hash], keyhive_core/src/cgka.rs 119-122: the key at the root of the tree as it is, whether or not
    there are several newest operations ([has_pcs_key] is not asked); secrets found on the way are kept.  [None] stands for any error, and
    for a panic. *)
Definition key_digest (h : client) (i : ident) : client * option nat :=
  match cgka_of h i with
  | None => (h, None)
  | Some c => match pcs_key_from_tree_root c with (c, r) => (put_cgka h i c, match r with Ok k => Some (pcs_digest k) | _ => None end) end
  end.
