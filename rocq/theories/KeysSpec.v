(** Specification vocabulary for merging concurrent keys. *)
From Coq Require Import Sorted.
From stdpp Require Import base list gmap.
From Verif Require Import ResModel KeysModel.

(** Keys in ascending (lexicographic) order. *)
Definition nk_sorted (n : node_key) : Prop := StronglySorted le (nk_keys n).

(** An update of a node key: the new key, and the keys it replaces. *)
Notation key_update := (node_key * list share_key)%type.

(** Merge a list of updates one after the other. *)
Fixpoint nk_merges (n : node_key) (us : list key_update) : res node_key :=
  match us with
  | [] => Ok n
  | u :: us' => let! n := nk_merge n u.1 u.2 in nk_merges n us'
  end.

(** No update replaces a key that another one introduces. *)
Definition concurrent_keys (us : list key_update) : Prop :=
  forall u u' k, u ∈ us -> u' ∈ us -> k ∈ nk_keys u.1 -> k ∉ u'.2.

(** The keys that should be left: those of the node that nobody replaced, and all the
    new ones. *)
Definition surviving_keys (n : node_key) (us : list key_update) : list share_key :=
  filter (fun k => k ∉ concat (map snd us)) (nk_keys n) ++ concat (map (fun u => nk_keys u.1) us).

(** The same for the versions of a secret store. *)
Notation store_update := (store * list share_key)%type.
Definition concurrent_versions (us : list store_update) : Prop :=
  forall u u' v, u ∈ us -> u' ∈ us -> v ∈ u.1 -> v_pk v ∉ u'.2.
Definition surviving_versions (s : store) (us : list store_update) : store :=
  filter (fun v => v_pk v ∉ concat (map snd us)) s ++ concat (map fst us).

(** The documented invariant of a secret store (secret_store.rs 20-21). *)
Definition store_sorted (s : store) : Prop := StronglySorted le (map v_pk s).
