(** Model of beekem/src/tree.rs: the BeeKEM tree. *)
From stdpp Require Import base list gmap.
From Verif Require Import ResModel KeysModel TreeMathModel.

(** beekem/src/id.rs [MemberId]; [MemberId::public()] is the well-known identity. *)
Notation member_id := nat (only parsing).
Definition public_id : member_id := 0.

(** tree.rs 617-621 [LeafNode]. *)
Record leaf_node := LeafNode { l_id : member_id; l_pk : node_key }.

(** tree.rs 25-32 [PathChange]; [pc_path] holds (inner node index, new inner node). *)
Record path_change := PathChange {
  pc_leaf_id : member_id;
  pc_leaf_idx : nat;
  pc_leaf_pk : node_key;
  pc_path : list (nat * store);
  pc_removed : list share_key
}.

(** tree.rs 64-72 [BeeKem] without [doc_id], which only enters the nonces. *)
Record tree := Tree {
  t_next : nat;
  t_leaves : list (option leaf_node);
  t_inner : list (option store);
  t_size : nat;
  t_ids : gmap member_id nat
}.

Definition set_leaves (t : tree) ls := Tree (t_next t) ls (t_inner t) (t_size t) (t_ids t).
Definition set_inner (t : tree) ns := Tree (t_next t) (t_leaves t) ns (t_size t) (t_ids t).
Definition set_next (t : tree) n := Tree n (t_leaves t) (t_inner t) (t_size t) (t_ids t).
Definition set_ids (t : tree) m := Tree (t_next t) (t_leaves t) (t_inner t) (t_size t) m.

(** tree.rs 497-501 [leaf]: panics when out of bounds. *)
Definition leaf_at (t : tree) (i : nat) : res (option leaf_node) := expect (t_leaves t !! i).
(** tree.rs 517-527 [inner_node], [inner_node_mut]; the argument is a tree index. *)
Definition inner_at (t : tree) (x : nat) : res (option store) :=
  expect (t_inner t !! inner_from_tree x).

(** tree.rs 529-532 [insert_leaf_at] and 141: indexing panics when out of bounds. *)
Definition write_leaf (t : tree) (i : nat) (l : option leaf_node) : res tree :=
  if i <? length (t_leaves t) then Ok (set_leaves t (<[i := l]> (t_leaves t))) else Panic.
(** tree.rs 534-536 [insert_inner_node_at] and 563-565 [blank_inner_node]. *)
Definition write_inner (t : tree) (x : nat) (s : option store) : res tree :=
  let i := inner_from_tree x in
  if i <? length (t_inner t) then Ok (set_inner t (<[i := s]> (t_inner t))) else Panic.

(** tree.rs 594-596 [is_root]. *)
Definition is_root (t : tree) (x : nat) : bool := x =? root (t_size t).

(** tree.rs 555-561 [blank_path]; [x] is the tree index of an inner node. *)
Fixpoint blank_path_loop (fuel : nat) (t : tree) (x : nat) : res tree :=
  let! t' := write_inner t x None in
  if is_root t x then Ok t'
  else match fuel with
       | 0 => OutOfFuel
       | S f => blank_path_loop f t' (parent x)
       end.
Definition blank_path (t : tree) (x : nat) : res tree := blank_path_loop (t_size t) t x.

(** tree.rs 140-143 [blank_leaf_and_path]. *)
Definition blank_leaf_and_path (t : tree) (i : nat) : res tree :=
  let! t := write_leaf t i None in
  blank_path t (parent (leaf_to_tree i)).

(** [Vec::resize(n, None)]. *)
Definition resize_vec {A} (n : nat) (l : list (option A)) : list (option A) :=
  take n l ++ replicate (n - length l) None.

(** tree.rs 587-592 [grow_tree_to_size]. *)
Definition grow_tree_to_size (t : tree) : tree :=
  Tree (t_next t) (resize_vec (leaf_count (t_size t)) (t_leaves t))
       (resize_vec (inner_node_count (t_size t)) (t_inner t)) (t_size t) (t_ids t).

(** tree.rs 579-585 [maybe_grow_tree]. *)
Definition maybe_grow_tree (t : tree) (new_count : nat) : tree :=
  if size_from_leaf_count new_count <=? t_size t then t
  else grow_tree_to_size
         (Tree (t_next t) (t_leaves t) (t_inner t) (size_inc (t_size t)) (t_ids t)).

(** tree.rs 147-155 [push_leaf]. *)
Definition push_leaf (t : tree) (id : member_id) (pk : node_key) : res (tree * nat) :=
  let t := maybe_grow_tree t (t_next t) in
  let l_idx := t_next t in
  let t := set_next t (l_idx + 1) in
  let! t := write_leaf t l_idx (Some (LeafNode id pk)) in
  let t := set_ids t (<[id := l_idx]> (t_ids t)) in
  let! t := blank_path t (parent (leaf_to_tree l_idx)) in
  Ok (t, l_idx).

(** tree.rs 75-91 [new]. *)
Definition tree_new (id : member_id) (pk : share_key) : res tree :=
  let t := grow_tree_to_size (Tree 0 [] [] (size_from_leaf_count 1) ∅) in
  let! (t, _) := push_leaf t id (SKey pk) in
  Ok t.

(** tree.rs 93-95 [contains_id]. *)
Definition contains_id (t : tree) (id : member_id) : bool := bool_decide (is_Some (t_ids t !! id)).
(** tree.rs 181-183 [member_count]. *)
Definition member_count (t : tree) : nat := size (t_ids t).
(** tree.rs 503-507 [leaf_index_for_id]. *)
Definition leaf_index_for_id (t : tree) (id : member_id) : res nat :=
  ok_or (t_ids t !! id) EIdentifierNotFound.

(** tree.rs 481-495 [node_key_for_index]. *)
Definition node_key_for_index (t : tree) (x : nat) : res node_key :=
  if is_leaf_idx x then
    let! o := leaf_at t (leaf_from_tree x) in
    let! l := ok_or o EShareKeyNotFound in
    Ok (l_pk l)
  else
    let! o := inner_at t x in
    let! s := ok_or o EShareKeyNotFound in
    store_node_key s.
(** tree.rs 97-100 [node_key_for_id]. *)
Definition node_key_for_id (t : tree) (id : member_id) : res node_key :=
  let! i := leaf_index_for_id t id in
  node_key_for_index t (leaf_to_tree i).

(** tree.rs 165-169: keys on the removed leaf's path. *)
Fixpoint path_keys (t : tree) (p : list nat) : res (list share_key) :=
  match p with
  | [] => Ok []
  | x :: p' =>
      let! o := inner_at t x in
      let! ks := match o with
                 | Some s => let! k := store_node_key s in Ok (nk_keys k)
                 | None => Ok []
                 end in
      let! rest := path_keys t p' in
      Ok (ks ++ rest)
  end.

(** tree.rs 173-176: drop trailing blank leaves.  [self.next_leaf_idx - 1] underflows
    (a panic) when no leaf is left. *)
Fixpoint collect_tombstones (fuel : nat) (t : tree) : res tree :=
  match t_next t with
  | 0 => Panic
  | S n =>
      let! o := leaf_at t n in
      match o with
      | Some _ => Ok t
      | None =>
          match fuel with
          | 0 => OutOfFuel
          | S f =>
              let! t := blank_path t (parent (leaf_to_tree n)) in
              collect_tombstones f (set_next t n)
          end
      end
  end.

(** tree.rs 159-178 [remove_id]. *)
Definition remove_id (t : tree) (id : member_id) : res (tree * (nat * list share_key)) :=
  if member_count t =? 1 then Err ERemoveLastMember
  else
    let! l_idx := leaf_index_for_id t id in
    match direct_path (leaf_to_tree l_idx) (t_size t) with
    | None => OutOfFuel
    | Some p =>
        let! removed_keys := path_keys t p in
        let! t := blank_leaf_and_path t l_idx in
        let t := set_ids t (delete id (t_ids t)) in
        let! t := collect_tombstones (t_next t) t in
        Ok (t, (l_idx, removed_keys))
    end.

(** tree.rs 538-543 [is_blank]. *)
Definition is_blank (t : tree) (x : nat) : res bool :=
  if is_leaf_idx x then
    let! o := leaf_at t (leaf_from_tree x) in Ok (negb (bool_decide (is_Some o)))
  else
    let! o := inner_at t x in Ok (negb (bool_decide (is_Some o))).

(** tree.rs 545-553 [should_skip_for_resolution]. *)
Definition should_skip (t : tree) (x : nat) : res bool :=
  if is_leaf_idx x then is_blank t x
  else
    let! o := inner_at t x in
    Ok (match o with Some s => has_conflict s | None => true end).

(** tree.rs 603-614 [append_resolution]; returns the indices it appends. *)
Fixpoint resolution (fuel : nat) (t : tree) (x : nat) : res (list nat) :=
  let! skip := should_skip t x in
  if skip then
    if is_leaf_idx x then Ok []
    else match fuel with
         | 0 => OutOfFuel
         | S f =>
             let! l := resolution f t (left x) in
             let! r := resolution f t (right x) in
             Ok (l ++ r)
         end
  else Ok [x].

(** ** Encrypting a path.  The random generator is a list of secret keys, consumed from
    the front ([ShareSecretKey::generate]). *)
Definition generate (rng : list secret_key) : res (secret_key * list secret_key) :=
  match rng with
  | [] => OutOfFuel
  | s :: rng' => Ok (s, rng')
  end.

(** tree.rs 459-475: encrypt for every node of the sibling resolution; the first
    encryption is also stored under the encrypter's own index. *)
Fixpoint encrypt_for (t : tree) (child_idx : nat) (child_sk new_parent_sk : secret_key)
    (used : bool) (res_nodes : list nat) (m : gmap nat enc_secret) : res (gmap nat enc_secret) :=
  match res_nodes with
  | [] => Ok m
  | idx :: rest =>
      let! k := node_key_for_index t idx in
      match k with
      | CKeys _ _ _ => Panic
      | SKey next_pk =>
          let e := encrypt_secret new_parent_sk child_sk next_pk in
          let m := if used then m else <[child_idx := e]> m in
          encrypt_for t child_idx child_sk new_parent_sk true rest (<[idx := e]> m)
      end
  end.

(** tree.rs 428-479 [encrypt_new_secret_store_for_parent]. *)
Definition new_secret_store (t : tree) (child_idx : nat) (child_pk : share_key)
    (child_sk : secret_key) (new_parent_pk : share_key) (new_parent_sk : secret_key)
    (rng : list secret_key) : res (store * list secret_key) :=
  let sibling_idx := sibling child_idx in
  let! r := resolution (level sibling_idx) t sibling_idx in
  match r with
  | [] =>
      let! (paired_sk, rng) := generate rng in
      let e := encrypt_secret new_parent_sk child_sk (pub paired_sk) in
      Ok (store_new new_parent_pk child_pk {[ child_idx := e ]}, rng)
  | _ =>
      let! m := encrypt_for t child_idx child_sk new_parent_sk false r ∅ in
      Ok (store_new new_parent_pk child_pk m, rng)
  end.

(** tree.rs 279-307: the loop of [encrypt_path].  Accumulates the new path, the removed
    keys and the secret keys; returns the last secret key too.  (399-420
    [encrypt_key_for_parent] is inlined.) *)
Fixpoint encrypt_path_loop (fuel : nat) (t : tree) (child_idx : nat) (child_pk : share_key)
    (child_sk : secret_key) (path : list (nat * store)) (removed : list share_key)
    (sks : sk_map) (rng : list secret_key)
    : res (tree * secret_key * list (nat * store) * list share_key * sk_map * list secret_key) :=
  if is_root t child_idx then Ok (t, child_sk, path, removed, sks, rng)
  else match fuel with
       | 0 => OutOfFuel
       | S f =>
           let parent_idx := parent child_idx in
           let! o := inner_at t parent_idx in
           let! ks := match o with
                      | Some s => let! k := store_node_key s in Ok (nk_keys k)
                      | None => Ok []
                      end in
           let! (new_sk, rng) := generate rng in
           let new_pk := pub new_sk in
           let sks := <[new_pk := new_sk]> sks in
           let! (st, rng) := new_secret_store t child_idx child_pk child_sk new_pk new_sk rng in
           let! t := write_inner t parent_idx (Some st) in
           encrypt_path_loop f t parent_idx new_pk new_sk
             (path ++ [(inner_from_tree parent_idx, st)]) (removed ++ ks) sks rng
       end.

(** tree.rs 254-309 [encrypt_path].  [debug_assert] (262) is not modelled.  The returned
    option is always [Some] in the code, so the pair is returned directly.  On [Err] the
    caller keeps the old tree in the model, while the code has already written the leaf
    when the secret key is missing (267-275); cgka.rs 343 inserts that key before calling. *)
Definition encrypt_path (t : tree) (id : member_id) (pk : share_key) (sks : sk_map)
    (rng : list secret_key) : res (tree * secret_key * path_change * sk_map * list secret_key) :=
  let! leaf_idx := leaf_index_for_id t id in
  let! old := node_key_for_id t id in
  let! t := write_leaf t leaf_idx (Some (LeafNode id (SKey pk))) in
  let! child_sk := ok_or (sks !! pk) ESecretKeyNotFound in
  let! (t, root_sk, path, removed, sks, rng) :=
    encrypt_path_loop (t_size t) t (leaf_to_tree leaf_idx) pk child_sk [] (nk_keys old) sks rng in
  Ok (t, root_sk, PathChange id leaf_idx (SKey pk) path removed, sks, rng).

(** ** Applying a remote path *)

(** tree.rs 598-600 [path_length_for]; [None] models a walk that does not end. *)
Definition path_length_for (t : tree) (i : nat) : option nat :=
  match direct_path (leaf_to_tree i) (t_size t) with
  | Some p => Some (length p)
  | None => None
  end.

(** tree.rs 343-350: merge the new inner nodes. *)
Fixpoint apply_path_nodes (t : tree) (path : list (nat * store)) (removed : list share_key) : res tree :=
  match path with
  | [] => Ok t
  | (i, node) :: rest =>
      let! o := expect (t_inner t !! i) in
      let s := match o with
               | Some cur => store_merge cur node removed
               | None => node
               end in
      apply_path_nodes (set_inner t (<[i := Some s]> (t_inner t))) rest removed
  end.

(** tree.rs 313-351 [apply_path]. *)
Definition apply_path (t : tree) (pc : path_change) : res tree :=
  match t_ids t !! pc_leaf_id pc with
  | None => Ok t
  | Some leaf_idx =>
      match path_length_for t (pc_leaf_idx pc) with
      | None => OutOfFuel
      | Some len =>
          let valid := (length (pc_path pc) =? len) && (leaf_idx =? pc_leaf_idx pc) in
          let! o := leaf_at t leaf_idx in
          let! leaf := expect o in
          let! nk := nk_merge (l_pk leaf) (pc_leaf_pk pc) (pc_removed pc) in
          let! t := write_leaf t leaf_idx (Some (LeafNode (pc_leaf_id pc) nk)) in
          if valid then apply_path_nodes t (pc_path pc) (pc_removed pc)
          else blank_path t (parent (leaf_to_tree leaf_idx))
      end
  end.

(** tree.rs 354-364 [has_root_key]. *)
Definition has_root_key (t : tree) : res bool :=
  let r := root (t_size t) in
  if is_leaf_idx r then Panic
  else
    let! o := inner_at t r in
    Ok (match o with Some s => negb (has_conflict s) | None => false end).

(** ** Decrypting the root secret.  The secret keys learnt on the way are kept even when
    a later step fails, so the functions return the key map next to the result. *)

(** tree.rs 371-396 [maybe_decrypt_parent_key]. *)
Definition maybe_decrypt_parent_key (t : tree) (child_idx : nat) (child_key : node_key)
    (seen : list nat) (sks : sk_map) : sk_map * res (option secret_key) :=
  match inner_at t (parent child_idx) with
  | Ok None => (sks, Ok None)
  | Ok (Some s) =>
      match store_node_key s with
      | Ok (CKeys _ _ _) => (sks, Ok None)
      | Ok (SKey parent_pk) =>
          match sks !! parent_pk with
          | Some secret => (sks, Ok (Some secret))
          | None =>
              match store_decrypt s child_key sks seen with
              | Ok secret => (<[parent_pk := secret]> sks, Ok (Some secret))
              | Err e => (sks, Err e)
              | Panic => (sks, Panic)
              | OutOfFuel => (sks, OutOfFuel)
              end
          end
      | Err e => (sks, Err e)
      | Panic => (sks, Panic)
      | OutOfFuel => (sks, OutOfFuel)
      end
  | Err e => (sks, Err e)
  | Panic => (sks, Panic)
  | OutOfFuel => (sks, OutOfFuel)
  end.

(** tree.rs 222-225: climb to the next child whose parent is neither blank nor in
    conflict. *)
Fixpoint skip_up (fuel : nat) (t : tree) (child_idx : nat) : res nat :=
  let! skip := should_skip t (parent child_idx) in
  if skip then
    match fuel with
    | 0 => OutOfFuel
    | S f => skip_up f t (parent child_idx)
    end
  else Ok child_idx.

(** tree.rs 220-236: the main loop. *)
Fixpoint decrypt_loop (fuel : nat) (t : tree) (child_idx : nat) (child_key : node_key)
    (seen : list nat) (sks : sk_map) (last : option secret_key) : sk_map * res (option secret_key) :=
  if is_root t child_idx then (sks, Ok last)
  else match fuel with
       | 0 => (sks, OutOfFuel)
       | S f =>
           match skip_up (t_size t) t child_idx with
           | Ok child_idx =>
               match maybe_decrypt_parent_key t child_idx child_key seen sks with
               | (sks, Ok (Some secret)) =>
                   let p := parent child_idx in
                   match node_key_for_index t p with
                   | Ok k => decrypt_loop f t p k (seen ++ [p]) sks (Some secret)
                   | Err e => (sks, Err e)
                   | Panic => (sks, Panic)
                   | OutOfFuel => (sks, OutOfFuel)
                   end
               | (sks, Ok None) => (sks, Panic)
               | (sks, Err e) => (sks, Err e)
               | (sks, Panic) => (sks, Panic)
               | (sks, OutOfFuel) => (sks, OutOfFuel)
               end
           | Err e => (sks, Err e)
           | Panic => (sks, Panic)
           | OutOfFuel => (sks, OutOfFuel)
           end
       end.

(** tree.rs 197-238 [decrypt_tree_secret]. *)
Definition decrypt_tree_secret (t : tree) (owner : member_id) (sks : sk_map) : sk_map * res secret_key :=
  match (match t_ids t !! owner with
         | Some i => Some i
         | None => t_ids t !! public_id
         end) with
  | None => (sks, Err EIdentifierNotFound)
  | Some leaf_idx =>
      match has_root_key t with
      | Ok true =>
          match leaf_at t leaf_idx with
          | Ok (Some leaf) =>
              let x := leaf_to_tree leaf_idx in
              match decrypt_loop (t_size t) t x (l_pk leaf) [x] sks None with
              | (sks, Ok (Some secret)) => (sks, Ok secret)
              | (sks, Ok None) => (sks, Err ENoRootKey)
              | (sks, Err e) => (sks, Err e)
              | (sks, Panic) => (sks, Panic)
              | (sks, OutOfFuel) => (sks, OutOfFuel)
              end
          | Ok None => (sks, Panic)
          | Err e => (sks, Err e)
          | Panic => (sks, Panic)
          | OutOfFuel => (sks, OutOfFuel)
          end
      | Ok false => (sks, Err ENoRootKey)
      | Err e => (sks, Err e)
      | Panic => (sks, Panic)
      | OutOfFuel => (sks, OutOfFuel)
      end
  end.

(** ** Concurrent membership changes *)

(** tree.rs 114-122: blank the path of every concurrently removed leaf.  The
    [debug_assert] (117) is not modelled (it does not run in release builds). *)
Fixpoint blank_removed (t : tree) (removed : list (member_id * nat)) (added : gset member_id)
    : res (tree * gset member_id) :=
  match removed with
  | [] => Ok (t, added)
  | (id, idx) :: rest =>
      let! t := blank_leaf_and_path t idx in
      blank_removed t rest (added ∖ {[ id ]})
  end.

(** tree.rs 123-131: pop leaves from the right until all added ids were met. *)
Fixpoint pop_added (fuel : nat) (t : tree) (added : gset member_id) (acc : list leaf_node)
    : res (tree * list leaf_node) :=
  if decide (added = ∅) then Ok (t, acc)
  else match t_next t with
       | 0 => Ok (t, acc)
       | S leaf_idx =>
           match fuel with
           | 0 => OutOfFuel
           | S f =>
               let! o := leaf_at t leaf_idx in
               let '(added, acc) :=
                 match o with
                 | Some l => (added ∖ {[ l_id l ]}, acc ++ [l])
                 | None => (added, acc)
                 end in
               let! t := blank_leaf_and_path t leaf_idx in
               pop_added f (set_next t leaf_idx) added acc
           end
       end.

(** [sort_by_key(|a| a.id)] (132): stable. *)
Fixpoint insert_leaf_sorted (l : leaf_node) (ls : list leaf_node) : list leaf_node :=
  match ls with
  | [] => [l]
  | x :: ls' => if l_id l <=? l_id x then l :: ls else x :: insert_leaf_sorted l ls'
  end.
Fixpoint sort_leaves (ls : list leaf_node) : list leaf_node :=
  match ls with
  | [] => []
  | x :: ls' => insert_leaf_sorted x (sort_leaves ls')
  end.

(** tree.rs 133-135. *)
Fixpoint push_leaves (t : tree) (ls : list leaf_node) : res tree :=
  match ls with
  | [] => Ok t
  | l :: rest =>
      let! (t, _) := push_leaf t (l_id l) (l_pk l) in
      push_leaves t rest
  end.

(** tree.rs 108-136 [sort_leaves_and_blank_paths_for_concurrent_membership_changes].
    The iteration order of the hash set [removed_ids] is the order of the list
    [removed]; [added] is only queried. *)
Definition sort_leaves_and_blank_paths (t : tree) (added : gset member_id)
    (removed : list (member_id * nat)) : res tree :=
  let! (t, added) := blank_removed t removed added in
  let! (t, ls) := pop_added (t_next t) t added [] in
  push_leaves t (sort_leaves ls).
