(** Properties C09 and C10: merging concurrent node keys and secret stores. *)
From Coq Require Import Sorted.
From stdpp Require Import base list gmap.
From Verif Require Import ResModel KeysModel KeysSpec KeysProofs.

(** ** C09 *)

(** A merge never panics, keeps exactly the keys that were not replaced and the new
    ones, and reports a single key iff one key is left. *)
Theorem node_key_merge_keys self new removed :
  exists r, nk_merge self new removed = Ok r /\
    let kept := filter (fun k => k ∉ removed) (nk_keys self) ++ nk_keys new in
    nk_keys r ≡ₚ kept /\
    nk_len r = length kept /\
    (forall k, nk_contains r k = bool_decide (k ∈ kept)) /\
    ((exists k, r = SKey k) <-> length kept = 1) /\
    (nk_sorted new -> nk_sorted r).
Proof. exact (node_key_merge_keys_lemma self new removed). Qed.
Print Assumptions node_key_merge_keys.

(** Merging concurrent updates gives the same node key in every order. *)
Theorem node_key_merge_order us us' n :
  us ≡ₚ us' -> concurrent_keys us -> (forall u, u ∈ us -> nk_sorted u.1) -> nk_sorted n ->
  nk_merges n us = nk_merges n us' /\
  exists r, nk_merges n us = Ok r /\ nk_sorted r /\ nk_keys r ≡ₚ surviving_keys n us.
Proof. exact (node_key_merge_order_lemma us us' n). Qed.
Print Assumptions node_key_merge_order.

(** ** C10 *)

(** A store never becomes empty, and its node key is always defined. *)
Theorem store_never_empty s us :
  s <> [] -> (forall u, u ∈ us -> u.1 <> []) ->
  let s' := foldl (fun s u => store_merge s u.1 u.2) s us in
  s' <> [] /\ exists nk, store_node_key s' = Ok nk /\ nk_keys nk = map v_pk s'.
Proof. exact (store_never_empty_lemma s us). Qed.
Print Assumptions store_never_empty.

(** Which versions are kept does not depend on the order of concurrent merges (the
    order in which they are listed does: see below). *)
Theorem store_versions_partial s us us' :
  us ≡ₚ us' -> concurrent_versions us ->
  foldl (fun s u => store_merge s u.1 u.2) s us = surviving_versions s us /\
  foldl (fun s u => store_merge s u.1 u.2) s us' ≡ₚ foldl (fun s u => store_merge s u.1 u.2) s us.
Proof. exact (store_versions_partial_lemma s us us'). Qed.
Print Assumptions store_versions_partial.

(** Full property: the versions stay in lexicographic order, so replicas report the same
    node key.  Refuted: two concurrent updates of one store, merged in the two orders. *)
Theorem store_versions_sorted_refuted :
  exists s us us', store_sorted s /\ us ≡ₚ us' /\ concurrent_versions us /\
    (forall u, u ∈ us -> store_sorted u.1) /\
    ~ store_sorted (foldl (fun s u => store_merge s u.1 u.2) s us) /\
    store_node_key (foldl (fun s u => store_merge s u.1 u.2) s us) <>
    store_node_key (foldl (fun s u => store_merge s u.1 u.2) s us').
Proof. exact store_versions_sorted_refuted_lemma. Qed.
Print Assumptions store_versions_sorted_refuted.

(** ** The hypotheses are met *)
Example three_concurrent_keys :
  let us := [(SKey 7, [3]); (SKey 5, [3]); (CKeys 6 9 [], [1])] in
  concurrent_keys us /\ (forall u, u ∈ us -> nk_sorted u.1) /\
  nk_merges (CKeys 1 3 [4]) us = Ok (CKeys 4 5 [6; 7; 9]).
Proof.
  cbv zeta. split; [|split; [|reflexivity]].
  - intros u u' k Hu Hu' Hk. rewrite !elem_of_cons, elem_of_nil in Hu, Hu'.
    destruct_or!; subst; try contradiction; cbn in *; rewrite !elem_of_cons, !elem_of_nil in *; lia.
  - intros u Hu. rewrite !elem_of_cons, elem_of_nil in Hu. destruct_or!; subst; try contradiction; repeat constructor.
Qed.
