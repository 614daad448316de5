(** Specification vocabulary for the operation graph. *)
From stdpp Require Import base list gmap relations.
From Verif Require Import ResModel KeysModel TreeModel OpsModel.

(** Known operation [h] names [p] as an immediate predecessor. *)
Definition pred_of (g : graph) (p h : digest) : Prop :=
  exists o, g_ops g !! h = Some o /\ p ∈ op_preds (so_op o).

(** Strict causal order and ancestry. *)
Definition before (g : graph) : digest -> digest -> Prop := tc (pred_of g).
Definition in_ancestry (g : graph) (heads : list digest) (h : digest) : Prop :=
  exists k, k ∈ heads /\ rtc (pred_of g) h k.

(** How graphs come about: the first operation, then operations made locally (naming all
    current heads as predecessors) and operations received after their predecessors. *)
Inductive graph_reachable : graph -> Prop :=
| gr_first op : op_preds (so_op op) = ∅ -> graph_reachable (add_local_op graph_new op)
| gr_local g op : graph_reachable g -> contains_op g (so_hash op) = false ->
    op_preds (so_op op) = g_heads g -> graph_reachable (add_local_op g op)
| gr_remote g op : graph_reachable g -> contains_op g (so_hash op) = false ->
    contains_predecessors g (op_preds (so_op op)) = true ->
    graph_reachable (add_op g op (op_preds (so_op op))).

(** Only one operation has no predecessors (the one that created the group). *)
Definition single_root (g : graph) : Prop :=
  forall h h' o o', g_ops g !! h = Some o -> g_ops g !! h' = Some o' ->
    op_preds (so_op o) = ∅ -> op_preds (so_op o') = ∅ -> h = h'.

(** A replay order is right for the heads [hs]: every operation in the ancestry once,
    each after its predecessors, in non-empty epochs such that everything in an earlier
    epoch causally precedes everything in a later one. *)
Record good_replay (g : graph) (hs : list digest) (epochs : list (list signed_op)) : Prop := {
  gre_complete o : o ∈ concat epochs <-> g_ops g !! so_hash o = Some o /\ in_ancestry g hs (so_hash o);
  gre_once : NoDup (concat epochs);
  gre_causal i o p : concat epochs !! i = Some o -> p ∈ op_preds (so_op o) ->
    exists j o', j < i /\ concat epochs !! j = Some o' /\ so_hash o' = p;
  gre_nonempty e : e ∈ epochs -> e <> [];
  gre_ordered i j e e' o o' : i < j -> epochs !! i = Some e -> epochs !! j = Some e' ->
    o ∈ e -> o' ∈ e' -> before g (so_hash o) (so_hash o')
}.

(** The additions that no known addition names as an earlier one. *)
Definition latest_add (g : graph) (h : digest) : Prop :=
  exists o, g_ops g !! h = Some o /\ is_add (so_op o) = true /\
    forall k o', g_ops g !! k = Some o' -> h ∉ op_add_preds (so_op o').

(** Received additions name as earlier additions only operations that precede them. *)
Inductive honest_adds : graph -> Prop :=
| ha_first op : op_preds (so_op op) = ∅ -> op_add_preds (so_op op) = [] -> honest_adds (add_local_op graph_new op)
| ha_local g op : honest_adds g -> contains_op g (so_hash op) = false ->
    op_preds (so_op op) = g_heads g -> list_to_set (op_add_preds (so_op op)) = (if is_add (so_op op) then g_add_heads g else ∅ : gset digest) ->
    honest_adds (add_local_op g op)
| ha_remote g op : honest_adds g -> contains_op g (so_hash op) = false ->
    contains_predecessors g (op_preds (so_op op)) = true ->
    (forall p, p ∈ op_add_preds (so_op op) -> is_Some (g_ops g !! p)) ->
    honest_adds (add_op g op (op_preds (so_op op))).
