(** Specification vocabulary for group-key agreement. *)
From stdpp Require Import base list gmap relations.
From Verif Require Import ResModel KeysModel TreeModel OpsModel OpsSpec CgkaModel.

(** An order in which a hash set may be iterated: every element once. *)
Definition some_order {A} `{Countable A} (order : gset A -> list A) : Prop :=
  forall s, Permutation (order s) (elements s).

Section runs.
Context (horder : gset digest -> list digest).
Context (rorder : gset (member_id * nat) -> list (member_id * nat)).

(** What a replica can do.  New operations get digests the replica has not seen; the
    result of the call does not matter, failed calls are steps too. *)
Inductive cgka_step (c c' : cgka) : Prop :=
| st_add id pk h r : contains_op (c_graph c) h = false ->
    cgka_add horder rorder c id pk h = (c', r) -> cgka_step c c'
| st_remove id h r : contains_op (c_graph c) h = false ->
    cgka_remove horder rorder c id h = (c', r) -> cgka_step c c'
| st_update sk h rng r : contains_op (c_graph c) h = false ->
    cgka_update horder rorder c sk h rng = (c', r) -> cgka_step c c'
| st_receive op r : merge_concurrent_operation horder rorder c op = (c', r) -> cgka_step c c'
| st_encrypt ref content preds sk h rng r : contains_op (c_graph c) h = false ->
    new_app_secret_for horder rorder c ref content preds sk h rng = (c', r) -> cgka_step c c'
| st_decrypt e r : decryption_key_for rorder c e = (c', r) -> cgka_step c c'
| st_owner id sks : c' = with_new_owner c id sks -> cgka_step c c'.

(** The states of a replica that created a group or was given its first operation. *)
Inductive cgka_reachable : cgka -> Prop :=
| cr_new id pk h c : cgka_from_init id pk (SignedOp h (init_add id pk)) = Ok c -> cgka_reachable c
| cr_step c c' : cgka_reachable c -> cgka_step c c' -> cgka_reachable c'.
End runs.

(** What a group-key operation needs in order to be understood: all its ancestors. *)
Definition ancestors_known (g : graph) (h : digest) : Prop :=
  forall a, rtc (pred_of g) a h -> is_Some (g_ops g !! a).

(** No operation names two predecessors of which one precedes the other.  Honest replicas
    name their heads, which are unordered; a received operation need not (nothing checks
    it). *)
Definition unordered_preds (g : graph) : Prop :=
  forall h o p q, g_ops g !! h = Some o -> p ∈ op_preds (so_op o) -> q ∈ op_preds (so_op o) -> ~ before g p q.
