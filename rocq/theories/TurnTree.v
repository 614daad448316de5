(** Decrypting in a tree that came about by successful operations never panics, whatever
    secrets are known, and forgets none of them. *)
From Coq Require Import Arith Lia.
From stdpp Require Import base list gmap.
From Verif Require Import ResModel KeysModel TreeMathModel TreeModel TreeMathSpec TreeMathProofs TreeSpec TreeOps TreeView TreeProofs TreeInv TreeRun.

Definition calm {A} (r : res A) : Prop := match r with Ok _ | Err _ => True | _ => False end.

Lemma version_calm v ck sks seen : calm (version_decrypt v ck sks seen).
Proof.
  unfold version_decrypt, try_encrypter_decrypt, try_decrypt_encryption, sym_decrypt.
  destruct (lookup_seen (v_sk v) seen) as [e|]; cbn; [|exact I].
  destruct (nk_contains ck (v_encrypter v)).
  - destruct (sks !! v_encrypter v); cbn; [|exact I]. destruct (decide _); exact I.
  - destruct (sks !! es_paired e); cbn; [|exact I]. destruct (decide _); exact I.
Qed.

Lemma maybe_decrypt_grows t x ck seen sks sks' r : maybe_decrypt_parent_key t x ck seen sks = (sks', r) -> sks ⊆ sks'.
Proof.
  unfold maybe_decrypt_parent_key. destruct (inner_at t (parent x)) as [[s|]|e| |]; [|intros Q; injection Q as <- <-; reflexivity..].
  destruct (store_node_key s) as [[p|p1 p2 m]|e| |]; [|intros Q; injection Q as <- <-; reflexivity..].
  destruct (sks !! p) as [y|] eqn:E; [intros Q; injection Q as <- <-; reflexivity|].
  destruct (store_decrypt s ck sks seen); intros Q; injection Q as <- <-; try reflexivity. apply insert_subseteq. exact E.
Qed.
Lemma decrypt_loop_grows fuel : forall t x ck seen sks l sks' r, decrypt_loop fuel t x ck seen sks l = (sks', r) -> sks ⊆ sks'.
Proof.
  induction fuel as [|f IH]; intros t x ck seen sks l sks' r; cbn [decrypt_loop]; destruct (is_root t x); try (intros Q; injection Q as <- <-; reflexivity).
  destruct (skip_up (t_size t) t x) as [y|e| |]; [|intros Q; injection Q as <- <-; reflexivity..].
  destruct (maybe_decrypt_parent_key t y ck seen sks) as [s1 r1] eqn:E. apply maybe_decrypt_grows in E.
  destruct r1 as [[s|]|e| |]; [|intros Q; injection Q as <- <-; exact E..].
  destruct (node_key_for_index t (parent y)) as [k|e| |]; [|intros Q; injection Q as <- <-; exact E..].
  intros Q. apply IH in Q. etransitivity; eauto.
Qed.
Lemma decrypt_grows t m sks sks' r : decrypt_tree_secret t m sks = (sks', r) -> sks ⊆ sks'.
Proof.
  unfold decrypt_tree_secret. destruct (match t_ids t !! m with Some i => Some i | None => t_ids t !! public_id end) as [i|]; [|intros Q; injection Q as <- <-; reflexivity].
  destruct (has_root_key t) as [[]|e| |]; try (intros Q; injection Q as <- <-; reflexivity).
  destruct (leaf_at t i) as [[l|]|e| |]; try (intros Q; injection Q as <- <-; reflexivity).
  destruct (decrypt_loop _ _ _ _ _ _ _) as [s1 r1] eqn:E. apply decrypt_loop_grows in E.
  destruct r1 as [[s|]|e| |]; intros Q; injection Q as <- <-; exact E.
Qed.

Lemma decrypt_loop_calm fuel t h k j ck seen sks last :
  shape t h -> keyed t -> inr h k j -> is_Some (nkey t h 0) -> h - k <= fuel ->
  calm (decrypt_loop fuel t (node k j) ck seen sks last).2.
Proof.
  intros S KY. revert k j ck seen sks last; induction fuel as [|f IH];
    intros k j ck seen sks last I R F; cbn [decrypt_loop]; rewrite (is_root_node _ _ _ _ S).
  - assert (k = h) as E by (destruct I; lia). subst k. rewrite (inr_root _ _ I), bool_decide_true by auto. exact Logic.I.
  - destruct (decide (k = h)) as [E|N].
    { subst k. rewrite (inr_root _ _ I), bool_decide_true by auto. exact Logic.I. }
    rewrite bool_decide_false by (intros [? _]; contradiction).
    assert (L : k < h) by (destruct I; lia).
    destruct (skip_up_spec (t_size t) t h k j S (ky_ne _ KY) I L) as (d & E & Ld & [pp Hp] & Hn).
    { eauto. }
    { rewrite (sh_size _ _ S). pose proof (complete_size_alt h). pose proof (pow2_gt h). lia. }
    rewrite E.
    assert (Ia : inr h (k + d) (anc j d)).
    { split; [lia|]. apply anc_lt. replace (d + (h - (k + d))) with (h - k) by lia. apply I. }
    pose proof (inr_parent _ _ _ Ia Ld) as Ip. rewrite <- anc_S' in Ip.
    pose proof (proj1 (nkey_inner _ _ _ _) Hp) as (v & Ev & <-).
    unfold maybe_decrypt_parent_key. rewrite parent_node, <- anc_S'.
    rewrite (inner_at_shape _ _ _ _ S) by apply Ip. rewrite Ev.
    cbn [store_node_key map nk_of_list]. rewrite (node_key_nkey _ _ _ _ _ S Ip Hp).
    destruct (sks !! v_pk v) as [s|] eqn:Es.
    + apply IH; auto; lia.
    + unfold store_decrypt. cbn [has_conflict length Nat.ltb Nat.leb].
      pose proof (version_calm v ck sks seen) as C. destruct (version_decrypt v ck sks seen) as [s|e| |]; cbn [calm] in C; try contradiction; [|exact Logic.I].
      apply IH; auto; lia.
Qed.
Lemma decrypt_calm t h m sks : Inv t h -> calm (decrypt_tree_secret t m sks).2.
Proof.
  intros V. pose proof (inv_shape _ _ V) as S. pose proof (inv_keyed _ _ V) as KY. unfold decrypt_tree_secret.
  destruct (match t_ids t !! m with Some i => Some i | None => t_ids t !! public_id end) as [i|] eqn:Ei; [|exact I].
  assert (Si : exists m', t_ids t !! m' = Some i) by (destruct (t_ids t !! m) eqn:Q; [injection Ei as <-|]; eauto). clear Ei. destruct Si as [m' Ei].
  rewrite (has_root_key_spec _ _ S (ky_ne _ KY)). case_bool_decide as R; [|exact I].
  pose proof (inv_id_range _ _ _ _ V Ei) as Hi. rewrite (leaf_at_shape _ _ _ S Hi).
  apply (inv_ids _ _ V) in Ei as [nk El]. rewrite El. cbn [l_pk]. rewrite leaf_to_tree_node.
  pose proof (decrypt_loop_calm (t_size t) t h 0 i nk [node 0 i] sks None S KY) as C.
  destruct (decrypt_loop _ _ _ _ _ _ _) as [s1 r1]. cbn [snd] in C.
  assert (C' : calm r1).
  { apply C; [apply inr_leaf; exact Hi|exact R|]. rewrite (sh_size _ _ S). pose proof (complete_size_alt h). pose proof (pow2_gt h). lia. }
  destruct r1 as [[s|]|e| |]; cbn in C'; try contradiction; exact I.
Qed.
