(** Model of beekem/src/operation.rs and beekem/src/topsort.rs: the causal graph of
    group-key operations and its replay order. *)
From stdpp Require Import base list gmap sorting.
From Verif Require Import ResModel KeysModel TreeModel.

(** [Digest<Signed<CgkaOperation>>]: digests are compared and sorted as numbers. *)
Notation digest := nat (only parsing).

(** operation.rs 55-77 [CgkaOperation].  The document id is left out: no modelled
    function reads it.  Predecessors are lists as in the code. *)
Inductive cgka_op :=
| CAdd (added_id : member_id) (pk : share_key) (leaf_index : nat) (preds add_preds : list digest)
| CRemove (id : member_id) (leaf_idx : nat) (removed_keys : list share_key) (preds : list digest)
| CUpdate (id : member_id) (new_path : path_change) (preds : list digest).

(** [Signed<CgkaOperation>] with its digest.  The signature is not looked at by this
    crate.  Digests being collision free is a hypothesis of the theorems that need it. *)
Record signed_op := SignedOp { so_hash : digest; so_op : cgka_op }.

(** operation.rs 80-89 [init_add]. *)
Definition init_add (id : member_id) (pk : share_key) : cgka_op := CAdd id pk 0 [] [].

(** operation.rs 92-103 [predecessors]. *)
Definition op_preds (o : cgka_op) : gset digest :=
  match o with
  | CAdd _ _ _ ps _ => list_to_set ps
  | CRemove _ _ _ ps => list_to_set ps
  | CUpdate _ _ ps => list_to_set ps
  end.
Definition is_add (o : cgka_op) : bool := match o with CAdd _ _ _ _ _ => true | _ => false end.
Definition is_update (o : cgka_op) : bool := match o with CUpdate _ _ _ => true | _ => false end.
Definition op_add_preds (o : cgka_op) : list digest := match o with CAdd _ _ _ _ ps => ps | _ => [] end.

(** operation.rs 119-128 [CgkaOperationGraph]. *)
Record graph := Graph {
  g_ops : gmap digest signed_op;
  g_preds : gmap digest (gset digest);
  g_heads : gset digest;
  g_add_heads : gset digest
}.

(** operation.rs 170-177 [new]. *)
Definition graph_new : graph := Graph ∅ ∅ ∅ ∅.

(** operation.rs 179-181. *)
Definition contains_op (g : graph) (h : digest) : bool := bool_decide (is_Some (g_ops g !! h)).
(** operation.rs 183-185. *)
Definition contains_predecessors (g : graph) (ps : gset digest) : bool :=
  bool_decide (set_Forall (fun h => is_Some (g_ops g !! h)) ps).
(** operation.rs 188-190. *)
Definition has_single_head (g : graph) : bool := size (g_heads g) =? 1.

(** operation.rs 206-242 [add_op_and_update_heads]: [external] is [Some heads] for
    [add_op] (198-204) and [None] for [add_local_op] (193-195). *)
Definition add_op_and_update_heads (g : graph) (op : signed_op) (external : option (gset digest)) : graph :=
  let h := so_hash op in
  let ops := <[h := op]> (g_ops g) in
  let '(op_predecessors, heads, add_heads) :=
    match external with
    | Some heads =>
        (heads, g_heads g ∖ heads, g_add_heads g ∖ list_to_set (op_add_preds (so_op op)))
    | None =>
        (g_heads g, ∅, if is_add (so_op op) then ∅ else g_add_heads g)
    end in
  Graph ops (<[h := op_predecessors]> (g_preds g)) (heads ∪ {[ h ]})
    (if is_add (so_op op) then add_heads ∪ {[ h ]} else add_heads).
Definition add_local_op (g : graph) (op : signed_op) : graph := add_op_and_update_heads g op None.
Definition add_op (g : graph) (op : signed_op) (heads : gset digest) : graph :=
  add_op_and_update_heads g op (Some heads).

(** operation.rs 244-246. *)
Definition heads_contained_in (g : graph) (hs : gset digest) : bool := bool_decide (g_heads g ⊆ hs).

(** operation.rs 159-167 [Merge::merge]: [extend] lets the argument's entries win;
    content_addressed_map.rs merges keep the present entry, which is the same one when
    digests are collision free. *)
Definition graph_merge (g fork : graph) : graph :=
  Graph (g_ops g ∪ g_ops fork) (g_preds fork ∪ g_preds g) (g_heads g ∪ g_heads fork)
    (g_add_heads g ∪ g_add_heads fork).

(** ** topsort.rs *)

(** topsort.rs 10-15 [TopologicalSort]. *)
Record topsort := Topsort { ts_deps : gmap digest (gset digest); ts_rdeps : gmap digest (gset digest) }.
Definition ts_new : topsort := Topsort ∅ ∅.

(** [entry(k).or_default()]. *)
Definition or_default (m : gmap digest (gset digest)) (k : digest) : gmap digest (gset digest) :=
  match m !! k with Some _ => m | None => <[k := ∅]> m end.
(** [entry(k).or_default().insert(v)]. *)
Definition entry_insert (m : gmap digest (gset digest)) (k v : digest) : gmap digest (gset digest) :=
  <[k := default ∅ (m !! k) ∪ {[ v ]}]> m.

(** topsort.rs 27-38 [add_dependency]. *)
Definition add_dependency (ts : topsort) (dependency dependent : digest) : topsort :=
  Topsort (entry_insert (or_default (ts_deps ts) dependency) dependent dependency)
          (entry_insert (or_default (ts_rdeps ts) dependent) dependency dependent).

(** topsort.rs 41-43. *)
Definition ts_is_empty (ts : topsort) : bool := bool_decide (ts_deps ts = ∅).

(** topsort.rs 57-66: take one ready node out. *)
Definition pop_one (ts : topsort) (node : digest) : topsort :=
  let deps := delete node (ts_deps ts) in
  match ts_rdeps ts !! node with
  | None => Topsort deps (ts_rdeps ts)
  | Some dependents =>
      Topsort (set_fold (fun d m => alter (fun s => s ∖ {[ node ]}) d m) deps dependents)
              (delete node (ts_rdeps ts))
  end.

(** topsort.rs 48-69 [pop_all]; the iteration order of the map decides the order of the
    result, which the only caller sorts (operation.rs 314-315), so it is sorted here. *)
Definition ready (ts : topsort) : gset digest := dom (filter (fun kv => kv.2 = ∅) (ts_deps ts)).
Definition sorted_elements (s : gset digest) : list digest := merge_sort le (elements s).
Definition pop_all (ts : topsort) : list digest * topsort :=
  let r := sorted_elements (ready ts) in
  (r, foldl pop_one ts r).

(** ** operation.rs 266-385 [topsort_for_heads] *)

(** 281-295: walk the ancestry breadth first, collecting dependencies and successors.
    The iteration order of the predecessor sets only affects the order of the frontier. *)
Record walk := Walk {
  w_ts : topsort;
  w_succ : gmap digest (gset digest);
  w_frontier : list digest;
  w_seen : gset digest
}.
Definition walk_pred (op_hash : digest) (w : walk) (p : digest) : walk :=
  let ts := add_dependency (w_ts w) p op_hash in
  let succ := entry_insert (w_succ w) p op_hash in
  if decide (p ∈ w_seen w) then Walk ts succ (w_frontier w) (w_seen w)
  else Walk ts succ (w_frontier w ++ [p]) (w_seen w ∪ {[ p ]}).
Fixpoint walk_loop (fuel : nat) (g : graph) (w : walk) : res walk :=
  match w_frontier w with
  | [] => Ok w
  | h :: rest =>
      match fuel with
      | 0 => OutOfFuel
      | S f =>
          let! preds := ok_or (g_preds g !! h) EOperationNotFound in
          walk_loop f g
            (foldl (walk_pred h) (Walk (w_ts w) (w_succ w) rest (w_seen w)) (elements preds))
      end
  end.
Definition walk_start (heads : list digest) : walk :=
  Walk ts_new (list_to_map (map (fun h => (h, ∅)) heads)) heads (list_to_set heads).

(** 316-324: a popped operation enters the epoch heads; one without successors counts
    itself as successor. *)
Definition enter_head (s : gset digest * gmap digest (gset digest)) (h : digest)
    : res (gset digest * gmap digest (gset digest)) :=
  let '(epoch_heads, succ) := s in
  let! ss := expect (succ !! h) in
  Ok (epoch_heads ∪ {[ h ]}, if decide (ss = ∅) then <[h := {[ h ]}]> succ else succ).
Fixpoint enter_heads (s : gset digest * gmap digest (gset digest)) (l : list digest)
    : res (gset digest * gmap digest (gset digest)) :=
  match l with
  | [] => Ok s
  | h :: rest => let! s := enter_head s h in enter_heads s rest
  end.
(** 325-332: every epoch head forgets the popped successors. *)
Definition forget (epoch_heads : gset digest) (succ : gmap digest (gset digest)) (h : digest)
    : gmap digest (gset digest) :=
  set_fold (fun k m => if decide (h = k) then m else alter (fun s => s ∖ {[ h ]}) k m) succ epoch_heads.
(** 333-337: keep the heads that still have successors (every head has an entry, put
    there by the walk, so the [expect] cannot fail). *)
Definition retain_heads (epoch_heads : gset digest) (succ : gmap digest (gset digest)) : gset digest :=
  filter (fun h => default ∅ (succ !! h) <> ∅) epoch_heads.

Definition push_epoch {A} (next : list A) (acc : list (list A)) : list (list A) :=
  match next with [] => acc | _ => acc ++ [next] end.

(** 350-357. *)
Fixpoint get_ops (g : graph) (l : list digest) : res (list signed_op) :=
  match l with
  | [] => Ok []
  | h :: rest =>
      let! o := ok_or (g_ops g !! h) EOperationNotFound in
      let! os := get_ops g rest in
      Ok (o :: os)
  end.

(** 313-369: the loop that groups the popped layers into epochs. *)
Fixpoint epoch_loop (fuel : nat) (g : graph) (ts : topsort) (succ : gmap digest (gset digest))
    (epoch_heads : gset digest) (next_epoch : list signed_op) (acc : list (list signed_op))
    : res (list (list signed_op)) :=
  if ts_is_empty ts then Ok (push_epoch next_epoch acc)
  else match fuel with
       | 0 => OutOfFuel
       | S f =>
           let '(next_set, ts) := pop_all ts in
           let! (epoch_heads, succ) := enter_heads (epoch_heads, succ) next_set in
           let succ := foldl (forget epoch_heads) succ next_set in
           let epoch_heads := retain_heads epoch_heads succ in
           let! os := get_ops g next_set in
           if size epoch_heads <=? 1
           then epoch_loop f g ts succ epoch_heads [] (push_epoch os (push_epoch next_epoch acc))
           else epoch_loop f g ts succ epoch_heads (next_epoch ++ os) acc
       end.

(** 266-385; [heads] lists the head set in the iteration order of the code. *)
Definition topsort_for_heads (g : graph) (heads : list digest) : res (list (list signed_op)) :=
  let! w := walk_loop (S (size (g_preds g))) g (walk_start heads) in
  if ts_is_empty (w_ts w) then
    match heads with
    | [] => Panic
    | _ =>
        let! os := match get_ops g heads with
                   | Ok os => Ok os
                   | _ => Panic
                   end in
        Ok [os]
    end
  else epoch_loop (size (ts_deps (w_ts w))) g (w_ts w) (w_succ w) ∅ [] [].
(** 261-263 [topsort_graph]. *)
Definition topsort_graph (g : graph) (order : gset digest -> list digest) : res (list (list signed_op)) :=
  topsort_for_heads g (order (g_heads g)).
