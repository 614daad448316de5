(** Properties C04 to C08: the key tree under uncontended histories.

    [reachable id pk ops t pcs] (TreeRun.v): starting from a tree whose only member is
    [id] with leaf key [pk], the operations [ops] all succeed, leave the tree [t] and
    publish the path changes [pcs].  The vocabulary is in TreeSpec.v and SecrecySpec.v. *)
From Coq Require Import Arith Lia.
From stdpp Require Import base list gmap.
From Verif Require Import ResModel KeysModel TreeModel TreeMathSpec TreeSpec TreeOps SecrecySpec TreeRun TreePropsProofs.

(** ** C04 *)

(** The tree holds exactly the members of the abstract group, each on one leaf. *)
Theorem key_tree_members id pk ops t pcs :
  reachable id pk ops t pcs ->
  let g := fold_left spec_step ops {[ id := pk ]} in
  (forall m, contains_id t m = bool_decide (is_Some (g !! m))) /\
  member_count t = size g /\
  (forall m p, g !! m = Some p <-> node_key_for_id t m = Ok (SKey p)) /\
  (forall m, is_Some (g !! m) -> exists i, forall i', i' = i <-> exists nk, leafv t i' = Some (LeafNode m nk)).
Proof. exact (key_tree_members_lemma id pk ops t pcs). Qed.
Print Assumptions key_tree_members.

(** No operation panics or loops: each one succeeds, except for removing the last
    member and for updating on behalf of a non-member, which are reported. *)
Theorem key_tree_never_panics id pk ops t pcs op :
  reachable id pk ops t pcs ->
  let g := fold_left spec_step ops {[ id := pk ]} in
  (forall m sk rng, op = OUpdate m sk rng -> 2 * t_size t <= length rng) ->
  (exists t' o, op_step t op = Ok (t', o)) \/
  (op_step t op = Err ERemoveLastMember /\ exists m p, op = ORemove m /\ g = {[ m := p ]}) \/
  (op_step t op = Err EIdentifierNotFound /\ exists m sk rng, op = OUpdate m sk rng /\ g !! m = None).
Proof. exact (key_tree_never_panics_lemma id pk ops t pcs op). Qed.
Print Assumptions key_tree_never_panics.

(** ** C05 *)
Theorem removal_blanks_path id pk ops t pcs m t' i ks :
  reachable id pk ops t pcs -> remove_id t m = Ok (t', (i, ks)) ->
  (exists nk, leafv t i = Some (LeafNode m nk)) /\
  (* the leaf and all its ancestors are blank *)
  (forall k j, below 0 i k j -> nkey t' k j = None) /\
  (forall k j, below 0 i (S k) j -> innerv t' k j = None) /\
  (* the other leaves are untouched *)
  leafv t' i = None /\ (forall i', i' <> i -> leafv t' i' = leafv t i') /\
  (* no new key appears; inner nodes only lose keys above the removed leaf or above a
     trailing blank leaf, whose slot is given up *)
  (forall k j, innerv t' k j = None \/ innerv t' k j = innerv t k j) /\
  (forall k j, (forall i', i' = i \/ t_next t' <= i' < t_next t -> ~ below 0 i' (S k) j) ->
     innerv t' k j = innerv t k j) /\
  (* the slot after the last occupied leaf is the next to be used *)
  (exists n, t_next t' = S n /\ is_Some (leafv t' n) /\ forall i', n < i' -> leafv t' i' = None) /\
  (* the reported keys are the keys of the ancestors *)
  (forall p, p ∈ ks <-> exists k j s v, below 0 i (S k) j /\ innerv t k j = Some s /\ v ∈ s /\ v_pk v = p) /\
  S (member_count t') = member_count t.
Proof. exact (removal_blanks_path_lemma id pk ops t pcs m t' i ks). Qed.
Print Assumptions removal_blanks_path.

Theorem last_member_not_removed id pk ops t pcs m :
  reachable id pk ops t pcs -> member_count t = 1 -> remove_id t m = Err ERemoveLastMember.
Proof. exact (last_member_not_removed_lemma id pk ops t pcs m). Qed.
Print Assumptions last_member_not_removed.

(** ** C06 *)

(** The path change of an update by the member on leaf [i]: on every level a new version
    with a new key, sealed once for every node of the resolution of the sibling, and for
    nothing else but the child it was derived from. *)
Theorem update_seals_path id pk ops t pcs m sk rng t' pc :
  reachable id pk ops t pcs -> op_step t (OUpdate m sk rng) = Ok (t', Some pc) ->
  exists i h, t_size t = complete_size h /\ (exists nk, leafv t i = Some (LeafNode m nk)) /\
    pc_leaf_id pc = m /\ pc_leaf_idx pc = i /\ pc_leaf_pk pc = SKey (pub sk) /\
    length (pc_path pc) = h /\
    forall k, k < h -> exists v own_key eph,
      pc_path pc !! k = Some (node k (i / 2 ^ S k), [v]) /\
      innerv t' k (i / 2 ^ S k) = Some [v] /\
      v_pk v ∈ rng /\
      nkey t' k (i / 2 ^ k) = Some own_key /\ v_encrypter v = own_key /\
      (forall x e, v_sk v !! x = Some e <->
         (x = node k (i / 2 ^ k) /\ e = encrypt_secret (v_pk v) own_key eph) \/
         (exists s k0 j0 p, s / 2 = i / 2 ^ S k /\ s <> i / 2 ^ k /\ in_resolution t k s k0 j0 /\
            nkey t k0 j0 = Some p /\ x = node k0 j0 /\ e = encrypt_secret (v_pk v) own_key p)) /\
      (* the key paired with the own entry belongs to the sibling's resolution, or is
         a new one when that is empty *)
      ((exists s k0 j0, s / 2 = i / 2 ^ S k /\ s <> i / 2 ^ k /\ in_resolution t k s k0 j0 /\ nkey t k0 j0 = Some eph)
       \/ eph ∈ rng).
Proof. exact (update_seals_path_lemma id pk ops t pcs m sk rng t' pc). Qed.
Print Assumptions update_seals_path.

(** The nodes sealed to cover every other occupied leaf, each once, and none of them
    covers only blank leaves. *)
Theorem update_reaches_exactly_members id pk ops t pcs i h :
  reachable id pk ops t pcs -> t_size t = complete_size h -> i < 2 ^ h ->
  (forall i' l, i' <> i -> leafv t i' = Some l ->
     exists k s k0 j0, (k < h /\ s / 2 = i / 2 ^ S k /\ s <> i / 2 ^ k /\ in_resolution t k s k0 j0 /\ below 0 i' k0 j0) /\
       forall k' s' k0' j0', (k' < h /\ s' / 2 = i / 2 ^ S k' /\ s' <> i / 2 ^ k' /\ in_resolution t k' s' k0' j0' /\ below 0 i' k0' j0') ->
         k' = k /\ s' = s /\ k0' = k0 /\ j0' = j0) /\
  (forall k s k0 j0, s / 2 = i / 2 ^ S k -> s <> i / 2 ^ k -> in_resolution t k s k0 j0 ->
     exists i' l, i' <> i /\ below 0 i' k0 j0 /\ leafv t i' = Some l).
Proof. exact (update_reaches_exactly_members_lemma id pk ops t pcs i h). Qed.
Print Assumptions update_reaches_exactly_members.

(** ** C07 *)

(** After an update every member, knowing at least the secret of the own leaf, decrypts
    the updater's root secret. *)
Theorem members_agree_after_update id pk ops t pcs m sk rng t' root_sk pc sks0 rng' :
  reachable id pk ops t pcs ->
  encrypt_path t m (pub sk) {[ pub sk := sk ]} rng = Ok (t', root_sk, pc, sks0, rng') ->
  forall m' p sks, node_key_for_id t' m' = Ok (SKey (pub p)) ->
    (forall q s, sks !! q = Some s -> pub s = q) -> sks !! pub p = Some p ->
    exists sks', decrypt_tree_secret t' m' sks = (sks', Ok root_sk).
Proof. exact (members_agree_after_update_lemma id pk ops t pcs m sk rng t' root_sk pc sks0 rng'). Qed.
Print Assumptions members_agree_after_update.

(** In every reachable tree all members see the same: one root secret for all, or no
    root key for all. *)
Theorem members_always_agree id pk ops t pcs :
  reachable id pk ops t pcs ->
  exists r : res secret_key, (r = Err ENoRootKey \/ exists s, r = Ok s) /\
  forall m p sks, node_key_for_id t m = Ok (SKey (pub p)) ->
    (forall q s, sks !! q = Some s -> pub s = q) -> sks !! pub p = Some p ->
    snd (decrypt_tree_secret t m sks) = r.
Proof. exact (members_always_agree_lemma id pk ops t pcs). Qed.
Print Assumptions members_always_agree.

(** A replica that holds the updater's previous tree and applies the published path
    change has the updater's new tree. *)
Theorem replica_follows_update id pk ops t pcs m sk rng t' pc :
  reachable id pk ops t pcs -> op_step t (OUpdate m sk rng) = Ok (t', Some pc) ->
  apply_path t pc = Ok t'.
Proof. exact (replica_follows_update_lemma id pk ops t pcs m sk rng t' pc). Qed.
Print Assumptions replica_follows_update.

(** ** C08 *)

(** The secrets of superseded operations (those about a member that was removed or
    updated later) and all ciphertexts ever published do not yield the secret of any
    node that currently holds a key, in particular not the root secret. *)
Theorem superseded_secrets_useless id pk ops t pcs (K : secret_key -> Prop) :
  let hist := OAdd id pk :: ops in
  reachable id pk ops t pcs -> fresh_history hist ->
  (forall s, K s -> exists n op, hist !! n = Some op /\ superseded hist n /\ op_secret op s) ->
  (forall m p, node_key_for_id t m = Ok (SKey (pub p)) -> ~ K p) ->
  forall k j p, nkey t k j = Some (pub p) -> ~ derivable K (published pcs) p.
Proof. exact (superseded_secrets_useless_lemma id pk ops t pcs K). Qed.
Print Assumptions superseded_secrets_useless.

(** A coalition of former members, none of which is a member now, that pools all their
    leaf secrets and all secrets they ever generated, cannot derive the root secret that
    the members decrypt. *)
Theorem removed_members_locked_out id pk ops t pcs (C : member_id -> Prop) (K : secret_key -> Prop) :
  let hist := OAdd id pk :: ops in
  reachable id pk ops t pcs -> fresh_history hist ->
  (forall c, C c -> contains_id t c = false) ->
  (forall s, K s <-> exists op, op ∈ hist /\ C (op_member op) /\ op_secret op s) ->
  (forall m p, node_key_for_id t m = Ok (SKey (pub p)) -> ~ K p) ->
  forall m p sks sks' root, node_key_for_id t m = Ok (SKey (pub p)) ->
    (forall q s, sks !! q = Some s -> pub s = q) -> sks !! pub p = Some p ->
    decrypt_tree_secret t m sks = (sks', Ok root) ->
    ~ derivable K (published pcs) root.
Proof. exact (removed_members_locked_out_lemma id pk ops t pcs C K). Qed.
Print Assumptions removed_members_locked_out.

(** ** The hypotheses are met *)

(** Alice (1) adds Bob (2) and Carol (3), updates, removes Bob, and Carol updates. *)
Definition demo_ops : list tree_op :=
  [OAdd 2 12; OAdd 3 13; OUpdate 1 21 [101; 102; 103; 104; 105; 106]; ORemove 2;
   OUpdate 3 33 [201; 202; 203; 204; 205; 206]].
Definition demo : res (tree * list path_change) :=
  let! t0 := tree_new 1 11 in run t0 demo_ops.

Example demo_reachable : exists t pcs, reachable 1 11 demo_ops t pcs /\
  member_count t = 2 /\ length pcs = 2 /\
  snd (decrypt_tree_secret t 1 {[ 21 := 21 ]}) = Ok 203 /\
  snd (decrypt_tree_secret t 3 {[ 33 := 33 ]}) = Ok 203 /\
  contains_id t 2 = false.
Proof.
  unfold reachable. eexists _, _. split.
  - eexists. split; vm_compute; reflexivity.
  - vm_compute. repeat split.
Qed.
Example demo_fresh : fresh_history (OAdd 1 11 :: demo_ops).
Proof.
  split.
  - apply (bool_decide_unpack _). vm_compute. exact I.
  - intros op s H. repeat (apply elem_of_cons in H as [->|H]; [intros E; cbn in E; unfold pub in E; subst; try contradiction;
      apply (bool_decide_unpack _); vm_compute; exact I|]). inversion H.
Qed.
Example demo_superseded : superseded (OAdd 1 11 :: demo_ops) 1.
Proof.
  exists (OAdd 2 12), 4, (ORemove 2). repeat split; try lia. left. reflexivity.
Qed.
