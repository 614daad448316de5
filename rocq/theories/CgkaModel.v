(** Model of beekem/src/cgka.rs (continuous group key agreement), pcs_key.rs and
    encrypted.rs (application secrets).

    Functions that take [&mut self] and may fail return the state next to the result, so
    changes made before a failure are kept.  Hash sets are iterated in an arbitrary order:
    [horder] for sets of digests and [rorder] for sets of removed leaves. *)
From stdpp Require Import base list gmap.
From Verif Require Import ResModel KeysModel TreeModel OpsModel.

(** pcs_key.rs 69-76 [PcsKey]: the root secret.  [Digest<PcsKey>] is collision free, so
    the model uses the key itself as its digest. *)
Notation pcs_key := secret_key (only parsing).
Definition pcs_digest (k : pcs_key) : nat := k.

(** cgka.rs 51-71 [Cgka] without [doc_id]. *)
Record cgka := Cgka {
  c_owner : member_id;
  c_sks : sk_map;
  c_tree : tree;
  c_graph : graph;
  c_pending : bool;
  c_pcs : gmap nat pcs_key;
  c_pcs_ops : gmap nat digest;
  c_original : member_id * share_key;
  c_init : signed_op
}.
Definition set_sks (c : cgka) s := Cgka (c_owner c) s (c_tree c) (c_graph c) (c_pending c) (c_pcs c) (c_pcs_ops c) (c_original c) (c_init c).
Definition set_tree (c : cgka) t := Cgka (c_owner c) (c_sks c) t (c_graph c) (c_pending c) (c_pcs c) (c_pcs_ops c) (c_original c) (c_init c).
Definition set_graph (c : cgka) g := Cgka (c_owner c) (c_sks c) (c_tree c) g (c_pending c) (c_pcs c) (c_pcs_ops c) (c_original c) (c_init c).
Definition set_pending (c : cgka) b := Cgka (c_owner c) (c_sks c) (c_tree c) (c_graph c) b (c_pcs c) (c_pcs_ops c) (c_original c) (c_init c).

(** cgka.rs 105-126 [new_from_init_add]; 93-102 [new] passes [init_add owner_id owner_pk]
    signed by the caller. *)
Definition cgka_from_init (owner_id : member_id) (owner_pk : share_key) (init : signed_op) : res cgka :=
  let! t := tree_new owner_id owner_pk in
  Ok (Cgka owner_id ∅ t (add_local_op graph_new init) false ∅ ∅ (owner_id, owner_pk) init).

(** cgka.rs 129-140 [with_new_owner]. *)
Definition with_new_owner (c : cgka) (id : member_id) (sks : sk_map) : cgka :=
  Cgka id sks (c_tree c) (c_graph c) (c_pending c) (c_pcs c) (c_pcs_ops c) (c_original c) (c_init c).

(** cgka.rs 597-602 [insert_pcs_key]. *)
Definition insert_pcs_key (c : cgka) (k : pcs_key) (h : digest) : cgka :=
  Cgka (c_owner c) (c_sks c) (c_tree c) (c_graph c) (c_pending c)
    (<[pcs_digest k := k]> (c_pcs c)) (<[pcs_digest k := h]> (c_pcs_ops c)) (c_original c) (c_init c).

(** cgka.rs 231-235 [has_pcs_key]. *)
Definition has_pcs_key (c : cgka) : res bool :=
  let! r := has_root_key (c_tree c) in
  Ok (r && has_single_head (c_graph c) && (size (g_add_heads (c_graph c)) <? 2)).

(** cgka.rs 417-434 [apply_operation]: none of the tree operations changes anything
    before returning an error, so only the new state is returned. *)
Definition apply_operation (c : cgka) (op : signed_op) : res cgka :=
  if contains_op (c_graph c) (so_hash op) then Ok c
  else
    let! t :=
      match so_op op with
      | CAdd id pk _ _ _ => let! (t, _) := push_leaf (c_tree c) id (SKey pk) in Ok t
      | CRemove id _ _ _ => let! (t, _) := remove_id (c_tree c) id in Ok t
      | CUpdate _ path _ => apply_path (c_tree c) path
      end in
    Ok (set_graph (set_tree c t) (add_op (c_graph c) op (op_preds (so_op op)))).

Fixpoint apply_operations (c : cgka) (ops : list signed_op) : res cgka :=
  match ops with
  | [] => Ok c
  | op :: rest => let! c := apply_operation c op in apply_operations c rest
  end.

Section cgka.
Context (horder : gset digest -> list digest).
Context (rorder : gset (member_id * nat) -> list (member_id * nat)).

(** cgka.rs 441-477: one epoch. *)
Definition epoch_added (epoch : list signed_op) : gset member_id :=
  list_to_set (omap (fun op => match so_op op with CAdd id _ _ _ _ => Some id | _ => None end) epoch).
Definition epoch_removed (epoch : list signed_op) : gset (member_id * nat) :=
  list_to_set (omap (fun op => match so_op op with CRemove id i _ _ => Some (id, i) | _ => None end) epoch).
Definition apply_epoch (c : cgka) (epoch : list signed_op) : res cgka :=
  match epoch with
  | [op] => apply_operation c op
  | _ =>
      if forallb (fun op => is_update (so_op op)) epoch then apply_operations c epoch
      else
        let! c := apply_operations c epoch in
        let! t := sort_leaves_and_blank_paths (c_tree c) (epoch_added epoch) (rorder (epoch_removed epoch)) in
        Ok (set_tree c t)
  end.
(** cgka.rs 439-480 [apply_epochs]: used on a scratch state only, so the state is not
    kept on failure. *)
Fixpoint apply_epochs (c : cgka) (epochs : list (list signed_op)) : res cgka :=
  match epochs with
  | [] => Ok c
  | e :: rest => let! c := apply_epoch c e in apply_epochs c rest
  end.

(** cgka.rs 483-501 [pcs_key_from_tree_root]: keys learnt on the way are kept. *)
Definition pcs_key_from_tree_root (c : cgka) : cgka * res pcs_key :=
  match decrypt_tree_secret (c_tree c) (c_owner c) (c_sks c) with
  | (sks, Ok k) => (set_sks c sks, Ok k)
  | (sks, Err e) =>
      if negb (c_owner c =? public_id) && contains_id (c_tree c) public_id then
        let '(sks, r) := decrypt_tree_secret (c_tree c) public_id sks in
        (set_sks c sks, r)
      else (set_sks c sks, Err e)
  | (sks, Panic) => (set_sks c sks, Panic)
  | (sks, OutOfFuel) => (set_sks c sks, OutOfFuel)
  end.

(** cgka.rs 542-545 [should_replay]. *)
Definition should_replay (c : cgka) : bool :=
  negb (bool_decide (g_heads (c_graph c) = ∅)) && (c_pending c || negb (has_single_head (c_graph c))).

(** [epochs.last()[0]]; epochs are never empty. *)
Definition last_first (epochs : list (list signed_op)) : res digest :=
  match last epochs with
  | Some (op :: _) => Ok (so_hash op)
  | _ => Panic
  end.

(** cgka.rs 559-567: the scratch state replay starts from (also 583-589). *)
Definition rebuild_from (c : cgka) (epochs : list (list signed_op)) : res cgka :=
  let! c0 := cgka_from_init (c_original c).1 (c_original c).2 (c_init c) in
  apply_epochs (with_new_owner c0 (c_owner c) (c_sks c)) epochs.

(** cgka.rs 559-573 [rebuild_cgka]. *)
Definition rebuild_cgka (c : cgka) (epochs : list (list signed_op)) : res cgka :=
  let! c' := rebuild_from c epochs in
  let! b := has_pcs_key c' in
  if b then
    let '(c', r) := pcs_key_from_tree_root c' in
    let! k := r in
    let! h := last_first epochs in
    Ok (insert_pcs_key c' k h)
  else Ok c'.

(** cgka.rs 606-617 [update_cgka_from]. *)
Definition update_cgka_from (c other : cgka) : cgka :=
  Cgka (c_owner c) (sk_extend (c_sks c) (c_sks other)) (c_tree other) (c_graph c) (c_pending other)
    (c_pcs other ∪ c_pcs c) (c_pcs_ops other ∪ c_pcs_ops c) (c_original c) (c_init c).

(** cgka.rs 549-555 [replay_ops_graph]: changes nothing when it fails. *)
Definition replay_ops_graph (c : cgka) : res cgka :=
  let! epochs := topsort_graph (c_graph c) horder in
  let! c' := rebuild_cgka c epochs in
  Ok (set_pending (update_cgka_from c c') false).

Definition maybe_replay (c : cgka) : res cgka :=
  if should_replay c then replay_ops_graph c else Ok c.

(** cgka.rs 239-266 [add]; [h] is the digest of the new signed operation. *)
Definition cgka_add (c : cgka) (id : member_id) (pk : share_key) (h : digest) : cgka * res (option signed_op) :=
  if contains_id (c_tree c) id then (c, Ok None)
  else
    match maybe_replay c with
    | Ok c =>
        match push_leaf (c_tree c) id (SKey pk) with
        | Ok (t, i) =>
            let op := SignedOp h (CAdd id pk i (horder (g_heads (c_graph c))) (horder (g_add_heads (c_graph c)))) in
            (set_graph (set_tree c t) (add_local_op (c_graph c) op), Ok (Some op))
        | Err e => (c, Err e)
        | Panic => (c, Panic)
        | OutOfFuel => (c, OutOfFuel)
        end
    | Err e => (c, Err e)
    | Panic => (c, Panic)
    | OutOfFuel => (c, OutOfFuel)
    end.

(** cgka.rs 283-309 [remove]. *)
Definition cgka_remove (c : cgka) (id : member_id) (h : digest) : cgka * res (option signed_op) :=
  if negb (contains_id (c_tree c) id) then (c, Ok None)
  else
    match maybe_replay c with
    | Ok c =>
        if member_count (c_tree c) =? 1 then (c, Err ERemoveLastMember)
        else
          match remove_id (c_tree c) id with
          | Ok (t, (i, ks)) =>
              let op := SignedOp h (CRemove id i ks (horder (g_heads (c_graph c)))) in
              (set_graph (set_tree c t) (add_local_op (c_graph c) op), Ok (Some op))
          | Err e => (c, Err e)
          | Panic => (c, Panic)
          | OutOfFuel => (c, OutOfFuel)
          end
    | Err e => (c, Err e)
    | Panic => (c, Panic)
    | OutOfFuel => (c, OutOfFuel)
    end.

(** cgka.rs 316-360 [update]; returns the new epoch key, the operation and what is left
    of the random stream. *)
Definition update_identity (c : cgka) (new_pk : share_key) (new_sk : secret_key) : res (member_id * share_key * secret_key) :=
  if contains_id (c_tree c) (c_owner c) then Ok (c_owner c, new_pk, new_sk)
  else
    match node_key_for_id (c_tree c) public_id with
    | Ok (SKey pk) => let! sk := ok_or (c_sks c !! pk) EShareKeyNotFound in Ok (public_id, pk, sk)
    | Ok (CKeys _ _ _) => Err EShareKeyNotFound
    | Err _ => Err EIdentifierNotFound
    | Panic => Panic
    | OutOfFuel => OutOfFuel
    end.
Definition cgka_update (c : cgka) (new_sk : secret_key) (h : digest) (rng : list secret_key)
    : cgka * res (pcs_key * signed_op * list secret_key) :=
  match maybe_replay c with
  | Ok c =>
      match update_identity c (pub new_sk) new_sk with
      | Ok (id, pk, sk) =>
          let c := set_sks c (<[pk := sk]> (c_sks c)) in
          match encrypt_path (c_tree c) id pk (c_sks c) rng with
          | Ok (t, k, path, sks, rng) =>
              let op := SignedOp h (CUpdate id path (horder (g_heads (c_graph c)))) in
              let c := set_graph (set_tree (set_sks c sks) t) (add_local_op (c_graph c) op) in
              (insert_pcs_key c k h, Ok (k, op, rng))
          | Err e => (c, Err e)
          | Panic => (c, Panic)
          | OutOfFuel => (c, OutOfFuel)
          end
      | Err e => (c, Err e)
      | Panic => (c, Panic)
      | OutOfFuel => (c, OutOfFuel)
      end
  | Err e => (c, Err e)
  | Panic => (c, Panic)
  | OutOfFuel => (c, OutOfFuel)
  end.

(** cgka.rs 374-405 [merge_concurrent_operation]. *)
Definition merge_concurrent_operation (c : cgka) (op : signed_op) : cgka * res bool :=
  if contains_op (c_graph c) (so_hash op) then (c, Ok false)
  else
    let preds := op_preds (so_op op) in
    if negb (contains_predecessors (c_graph c) preds) then (c, Err EOutOfOrderOperation)
    else if negb (heads_contained_in (c_graph c) preds) then
      if c_pending c then (set_graph c (add_op (c_graph c) op preds), Ok true)
      else if is_update (so_op op) then
        match apply_operation c op with
        | Ok c => (c, Ok true)
        | Err e => (c, Err e)
        | Panic => (c, Panic)
        | OutOfFuel => (c, OutOfFuel)
        end
      else (set_graph (set_pending c true) (add_op (c_graph c) op preds), Ok true)
    else
      match maybe_replay c with
      | Ok c =>
          match apply_operation c op with
          | Ok c => (c, Ok true)
          | Err e => (c, Err e)
          | Panic => (c, Panic)
          | OutOfFuel => (c, OutOfFuel)
          end
      | Err e => (c, Err e)
      | Panic => (c, Panic)
      | OutOfFuel => (c, OutOfFuel)
      end.

(** cgka.rs 578-594 [rebuild_pcs_key]; the [debug_assert] is not modelled. *)
Definition rebuild_pcs_key (c : cgka) (epochs : list (list signed_op)) : cgka * res pcs_key :=
  match (let! c' := rebuild_from c epochs in (pcs_key_from_tree_root c').2) with
  | Ok k =>
      match last_first epochs with
      | Ok h => (insert_pcs_key c k h, Ok k)
      | Err e => (c, Err e)
      | Panic => (c, Panic)
      | OutOfFuel => (c, OutOfFuel)
      end
  | Err e => (c, Err e)
  | Panic => (c, Panic)
  | OutOfFuel => (c, OutOfFuel)
  end.

(** cgka.rs 528-539 [derive_pcs_key_for_op]. *)
Definition derive_pcs_key_for_op (c : cgka) (h : digest) : cgka * res pcs_key :=
  if negb (contains_op (c_graph c) h) then (c, Err EUnknownPcsKey)
  else
    match topsort_for_heads (c_graph c) [h] with
    | Ok epochs => rebuild_pcs_key c epochs
    | Err e => (c, Err e)
    | Panic => (c, Panic)
    | OutOfFuel => (c, OutOfFuel)
    end.

(** cgka.rs 508-524 [pcs_key_from_hashes]. *)
Definition pcs_key_from_hashes (c : cgka) (kh : nat) (h : digest) : cgka * res pcs_key :=
  match c_pcs c !! kh with
  | Some k => (c, Ok k)
  | None =>
      match has_pcs_key c with
      | Ok true =>
          let '(c, r) := pcs_key_from_tree_root c in
          match r with
          | Ok k => if pcs_digest k =? kh then (c, Ok k) else derive_pcs_key_for_op c h
          | Err _ => derive_pcs_key_for_op c h
          | Panic => (c, Panic)
          | OutOfFuel => (c, OutOfFuel)
          end
      | Ok false => derive_pcs_key_for_op c h
      | Err e => (c, Err e)
      | Panic => (c, Panic)
      | OutOfFuel => (c, OutOfFuel)
      end
  end.

(** ** Application secrets *)

(** pcs_key.rs 83-104 [derive_application_secret]: BLAKE3 over the epoch key, its hash, the
    hash of the predecessor references and the hash of the content reference, symbolic: the
    key is the tuple.  The nonce and the operation hash do not enter. *)
Inductive app_key := AppKey (k : pcs_key) (pred_refs : list nat) (content_ref : nat).
(** siv.rs [Siv::new] over the epoch key and the plaintext. *)
Inductive siv := Siv (k : pcs_key) (plaintext : list nat).
(** pcs_key.rs 16-24 [ApplicationSecret]. *)
Record app_secret := AppSecret {
  as_key : app_key; as_pcs : nat; as_op : digest; as_nonce : siv; as_ref : nat; as_preds : list nat
}.
Definition derive_application_secret (k : pcs_key) (n : siv) (ref : nat) (preds : list nat) (h : digest) : app_secret :=
  AppSecret (AppKey k preds ref) (pcs_digest k) h n ref preds.

(** encrypted.rs 22-39 [EncryptedContent]; the ciphertext is symbolic authenticated
    encryption: it opens with the same key and nonce only. *)
Record aead := Aead { ct_key : app_key; ct_nonce : siv; ct_plain : list nat }.
Record encrypted_content := Encrypted {
  ec_nonce : siv; ec_cipher : aead; ec_pcs : nat; ec_op : digest; ec_ref : nat; ec_preds : list nat
}.
(** pcs_key.rs 52-65 [ApplicationSecret::try_encrypt]. *)
Definition app_encrypt (s : app_secret) (plain : list nat) : encrypted_content :=
  Encrypted (as_nonce s) (Aead (as_key s) (as_nonce s) plain) (as_pcs s) (as_op s) (as_ref s) (as_preds s).
Global Instance app_key_eq_dec : EqDecision app_key.
Proof. solve_decision. Defined.
Global Instance siv_eq_dec : EqDecision siv.
Proof. solve_decision. Defined.
(** encrypted.rs 62-66 [try_decrypt]. *)
Definition content_decrypt (e : encrypted_content) (k : app_key) : option (list nat) :=
  if decide (ct_key (ec_cipher e) = k /\ ct_nonce (ec_cipher e) = ec_nonce e) then Some (ct_plain (ec_cipher e)) else None.

(** cgka.rs 158-206 [new_app_secret_for].  In the first branch [update] already inserts
    the epoch key; the code does it again.  In the second, the head exists because
    [has_pcs_key] demands a single one. *)
Definition new_app_secret_for (c : cgka) (ref : nat) (content : list nat) (preds : list nat)
    (new_sk : secret_key) (h : digest) (rng : list secret_key)
    : cgka * res (app_secret * option signed_op) :=
  let finish (c : cgka) (k : pcs_key) (op : option signed_op) :=
    match c_pcs_ops c !! pcs_digest k with
    | Some oh => (c, Ok (derive_application_secret k (Siv k content) ref preds oh, op))
    | None => (c, Panic)
    end in
  match has_pcs_key c with
  | Ok false =>
      match cgka_update c new_sk h rng with
      | (c, Ok (k, op, _)) => finish (insert_pcs_key c k (so_hash op)) k (Some op)
      | (c, Err e) => (c, Err e)
      | (c, Panic) => (c, Panic)
      | (c, OutOfFuel) => (c, OutOfFuel)
      end
  | Ok true =>
      match pcs_key_from_tree_root c with
      | (c, Ok k) =>
          match c_pcs c !! pcs_digest k, horder (g_heads (c_graph c)) with
          | None, head :: _ => finish (insert_pcs_key c k head) k None
          | _, _ => finish c k None
          end
      | (c, Err e) => (c, Err e)
      | (c, Panic) => (c, Panic)
      | (c, OutOfFuel) => (c, OutOfFuel)
      end
  | Err e => (c, Err e)
  | Panic => (c, Panic)
  | OutOfFuel => (c, OutOfFuel)
  end.

(** cgka.rs 213-229 [decryption_key_for]. *)
Definition decryption_key_for (c : cgka) (e : encrypted_content) : cgka * res app_key :=
  match pcs_key_from_hashes c (ec_pcs e) (ec_op e) with
  | (c, Ok k) =>
      let c := match c_pcs c !! ec_pcs e with
               | Some _ => c
               | None => insert_pcs_key c k (ec_op e)
               end in
      (c, Ok (as_key (derive_application_secret k (ec_nonce e) (ec_ref e) (ec_preds e) (ec_op e))))
  | (c, Err er) => (c, Err er)
  | (c, Panic) => (c, Panic)
  | (c, OutOfFuel) => (c, OutOfFuel)
  end.

(** cgka.rs 628-637 [Merge::merge]: panics when the replay fails. *)
Definition cgka_merge (c fork : cgka) : res cgka :=
  let c := Cgka (c_owner c) (sk_extend (c_sks c) (c_sks fork)) (c_tree c) (graph_merge (c_graph c) (c_graph fork))
             (c_pending c) (c_pcs fork ∪ c_pcs c) (c_pcs_ops fork ∪ c_pcs_ops c) (c_original c) (c_init c) in
  match replay_ops_graph c with
  | Ok c => Ok c
  | OutOfFuel => OutOfFuel
  | _ => Panic
  end.
End cgka.
