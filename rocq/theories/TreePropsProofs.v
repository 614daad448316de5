(** Proofs of the statements of [TreeProps]. *)
From Coq Require Import Arith Lia.
From stdpp Require Import base list gmap.
From Verif Require Import ResModel KeysModel TreeModel TreeMathModel TreeMathSpec TreeMathProofs TreeSpec TreeOps TreeView TreeProofs TreeInv SecrecySpec TreeRun SecrecyProofs.

Lemma node_key_for_id_spec t h g m p : Inv t h -> abs_group t g ->
  g !! m = Some p <-> node_key_for_id t m = Ok (SKey p).
Proof.
  intros V A. unfold node_key_for_id, leaf_index_for_id. split.
  - intros E. apply A in E as [i El]. assert (Ei : t_ids t !! m = Some i) by (apply (inv_ids _ _ V); eauto).
    rewrite Ei. cbn [ok_or rbind]. rewrite leaf_to_tree_node.
    eapply node_key_nkey; [apply V|apply inr_leaf; eapply inv_id_range; eauto|]. cbn [nkey]. rewrite El. reflexivity.
  - destruct (t_ids t !! m) as [i|] eqn:Ei; cbn [ok_or rbind]; [|discriminate].
    pose proof (inv_id_range _ _ _ _ V Ei) as Hi. rewrite leaf_to_tree_node.
    unfold node_key_for_index. rewrite is_leaf_node_0, leaf_from_node, (leaf_at_shape _ _ _ (inv_shape _ _ V) Hi).
    cbn [rbind]. apply (inv_ids _ _ V) in Ei as [nk El]. rewrite El. cbn. intros Q. injection Q as ->.
    apply A. eauto.
Qed.

Lemma key_tree_members_lemma id pk ops t pcs :
  reachable id pk ops t pcs ->
  let g := fold_left spec_step ops {[ id := pk ]} in
  (forall m, contains_id t m = bool_decide (is_Some (g !! m))) /\
  member_count t = size g /\
  (forall m p, g !! m = Some p <-> node_key_for_id t m = Ok (SKey p)) /\
  (forall m, is_Some (g !! m) -> exists i, forall i', i' = i <-> exists nk, leafv t i' = Some (LeafNode m nk)).
Proof.
  intros R. cbv zeta. destruct (reachable_inv _ _ _ _ _ R) as (h & V & A). set (g := fold_left _ _ _) in *.
  split; [intros m; eapply contains_id_spec; eauto|]. split; [eapply abs_size; eauto|].
  split; [intros m p; eapply node_key_for_id_spec; eauto|].
  intros m Hm. destruct (proj2 (abs_ids t h g m V A) Hm) as [i Ei]. exists i. intros i'. split.
  - intros ->. apply (inv_ids _ _ V). exact Ei.
  - intros Q. apply (inv_ids _ _ V) in Q. congruence.
Qed.

Lemma key_tree_never_panics_lemma id pk ops t pcs op :
  reachable id pk ops t pcs ->
  let g := fold_left spec_step ops {[ id := pk ]} in
  (forall m sk rng, op = OUpdate m sk rng -> 2 * t_size t <= length rng) ->
  (exists t' o, op_step t op = Ok (t', o)) \/
  (op_step t op = Err ERemoveLastMember /\ exists m p, op = ORemove m /\ g = {[ m := p ]}) \/
  (op_step t op = Err EIdentifierNotFound /\ exists m sk rng, op = OUpdate m sk rng /\ g !! m = None).
Proof.
  intros R. cbv zeta. destruct (reachable_inv _ _ _ _ _ R) as (h & V & A). eapply op_step_total; eauto.
Qed.

Lemma last_member_not_removed_lemma id pk ops t pcs m :
  reachable id pk ops t pcs -> member_count t = 1 -> remove_id t m = Err ERemoveLastMember.
Proof. intros _ E. unfold remove_id. rewrite E. reflexivity. Qed.

Lemma below_0_anc i k j : below 0 i k j <-> j = anc i k.
Proof. unfold below. rewrite Nat.sub_0_r. change (0 <= k /\ anc i k = j <-> j = anc i k). split; [intros [_ <-]; reflexivity|intros ->; split; [lia|reflexivity]]. Qed.

Lemma removed_member_count t t' id i h m : removed t t' id i h m -> S (member_count t') = member_count t.
Proof.
  intros R. unfold member_count. rewrite (rm_ids _ _ _ _ _ _ R), map_size_delete, (rm_was _ _ _ _ _ _ R). cbn.
  assert (size (t_ids t) <> 0); [|lia]. intros Z. apply map_size_empty_inv in Z.
  pose proof (rm_was _ _ _ _ _ _ R) as Q. rewrite Z, lookup_empty in Q. discriminate.
Qed.

Lemma innerv_level t h k j s : shape t h -> innerv t k j = Some s -> k < h.
Proof. intros S E. destruct (innerv_range _ _ _ _ _ S E). lia. Qed.

Lemma removal_blanks_path_lemma id pk ops t pcs m t' i ks :
  reachable id pk ops t pcs -> remove_id t m = Ok (t', (i, ks)) ->
  (exists nk, leafv t i = Some (LeafNode m nk)) /\
  (forall k j, below 0 i k j -> nkey t' k j = None) /\
  (forall k j, below 0 i (S k) j -> innerv t' k j = None) /\
  leafv t' i = None /\ (forall i', i' <> i -> leafv t' i' = leafv t i') /\
  (forall k j, innerv t' k j = None \/ innerv t' k j = innerv t k j) /\
  (forall k j, (forall i', i' = i \/ t_next t' <= i' < t_next t -> ~ below 0 i' (S k) j) ->
     innerv t' k j = innerv t k j) /\
  (exists n, t_next t' = S n /\ is_Some (leafv t' n) /\ forall i', n < i' -> leafv t' i' = None) /\
  (forall p, p ∈ ks <-> exists k j s v, below 0 i (S k) j /\ innerv t k j = Some s /\ v ∈ s /\ v_pk v = p) /\
  S (member_count t') = member_count t.
Proof.
  intros R E. destruct (reachable_inv _ _ _ _ _ R) as (h & V & A).
  destruct (Nat.eq_dec (member_count t) 1) as [C|C].
  { unfold remove_id in E. rewrite C in E. discriminate. }
  destruct (t_ids t !! m) as [i0|] eqn:Ei.
  2: { unfold remove_id, leaf_index_for_id in E. rewrite Ei in E. destruct (member_count t =? 1); discriminate. }
  destruct (remove_id_spec t h m i0 V Ei C) as (t1 & mx & E1 & Rm). rewrite E1 in E. injection E as <- <- <-.
  assert (BI : forall k j, below 0 i0 (S k) j -> innerv t1 k j = None).
  { intros k j B. apply below_0_anc in B as ->. destruct (innerv t1 k (anc i0 (S k))) as [s|] eqn:Q; [|reflexivity].
    pose proof (innerv_level _ _ _ _ _ (rm_shape _ _ _ _ _ _ Rm) Q) as L.
    rewrite (rm_blank _ _ _ _ _ _ Rm) in Q by auto. discriminate. }
  split; [apply (inv_ids _ _ V); exact Ei|]. split; [|split; [exact BI|]].
  { intros k j B. destruct k as [|k]; cbn [nkey].
    - apply below_0_anc in B as ->. rewrite anc_0, (rm_leaf _ _ _ _ _ _ Rm), decide_True by reflexivity. reflexivity.
    - rewrite (BI k j B). reflexivity. }
  split; [rewrite (rm_leaf _ _ _ _ _ _ Rm), decide_True; reflexivity|].
  split; [intros i' N; rewrite (rm_leaf _ _ _ _ _ _ Rm), decide_False by exact N; reflexivity|].
  split; [apply (rm_mono _ _ _ _ _ _ Rm)|]. split.
  { intros k j H. apply (rm_keep _ _ _ _ _ _ Rm). intros i' Pi ->. apply (H i').
    - destruct Pi; [auto|right]. rewrite (rm_next _ _ _ _ _ _ Rm). lia.
    - apply below_0_anc. reflexivity. }
  split.
  { exists mx. split; [apply Rm|]. split; [apply Rm|]. intros i' L.
    destruct (remove_id_inv _ _ _ _ _ _ _ V A Rm) as [V' _]. apply (inv_blank _ _ V').
    rewrite (rm_next _ _ _ _ _ _ Rm). lia. }
  split; [|eapply removed_member_count; eauto].
  intros p. rewrite elem_of_list_In, in_concat. split.
  - intros (l & Hl & Hp). apply in_map_iff in Hl as ([k j] & <- & Hkj). cbn [fst snd] in Hp.
    unfold above in Hkj. apply in_map_iff in Hkj as (d & Q & _). injection Q as <- <-.
    apply elem_of_list_In in Hp. unfold ikeys in Hp.
    change (0 + d) with d in *.
    destruct (innerv t d (anc i0 (S d))) as [s|] eqn:Es; [|inversion Hp].
    apply elem_of_list_fmap in Hp as (v & -> & Hv). exists d, (anc i0 (S d)), s, v.
    split; [apply below_0_anc; reflexivity|auto].
  - intros (k & j & s & v & B & Es & Hv & <-). apply below_0_anc in B as ->.
    exists (ikeys t k (anc i0 (S k))). split.
    + apply in_map_iff. exists (k, anc i0 (S k)). split; [reflexivity|]. unfold above. apply in_map_iff. exists k.
      split; [reflexivity|]. apply in_seq. pose proof (innerv_level _ _ _ _ _ (inv_shape _ _ V) Es). lia.
    + apply elem_of_list_In. unfold ikeys. rewrite Es. apply elem_of_list_fmap. eauto.
Qed.

Lemma sib_iff i k s : s / 2 = i / 2 ^ S k /\ s <> i / 2 ^ k <-> s = sib (anc i k).
Proof.
  change (s / 2 = anc i (S k) /\ s <> anc i k <-> s = sib (anc i k)). rewrite anc_S'. split.
  - intros [E N]. destruct (same_half s (anc i k) E); [contradiction|assumption].
  - intros ->. split; [apply sib_div2|apply sib_neq].
Qed.

Lemma op_step_update id pk ops t pcs m sk rng t' pc :
  reachable id pk ops t pcs -> op_step t (OUpdate m sk rng) = Ok (t', Some pc) ->
  exists h i vs rng', Inv t h /\ Inv t' h /\ abs_group t' (<[m := sk]> (fold_left spec_step ops {[ id := pk ]})) /\
    t_ids t !! m = Some i /\ enc_versions t h 0 i sk rng = Some (vs, rng') /\
    t' = upd_tree t m sk i vs /\ updated t t' m sk i h vs /\
    pc = PathChange m i (SKey sk) (path_of 0 i vs)
              (match nkey t 0 i with Some p => [p] | None => [] end ++
               concat (map (fun n => ikeys t n.1 n.2) (above 0 i h))).
Proof.
  intros R E. destruct (reachable_inv _ _ _ _ _ R) as (h & V & A).
  destruct (op_step_inv _ _ _ _ _ _ V A E) as (h' & _ & V' & A' & St).
  inversion St as [| | |? ? ? i vs rng' Ei EV U]; subst.
  exists h, i, vs, rng'. split; [exact V|].
  destruct (updated_inv _ _ _ _ _ _ _ _ _ _ V A EV U) as [V'' A''].
  split; [exact V''|]. split; [exact A''|]. split; [exact Ei|]. split; [exact EV|]. auto.
Qed.

Lemma replica_follows_update_lemma id pk ops t pcs m sk rng t' pc :
  reachable id pk ops t pcs -> op_step t (OUpdate m sk rng) = Ok (t', Some pc) ->
  apply_path t pc = Ok t'.
Proof.
  intros R E. destruct (op_step_update _ _ _ _ _ _ _ _ _ _ R E) as (h & i & vs & rng' & V & _ & _ & Ei & EV & -> & _ & ->).
  apply apply_path_spec; [exact V|exact Ei|]. eapply enc_versions_length; eauto.
Qed.

Lemma update_seals_path_lemma id pk ops t pcs m sk rng t' pc :
  reachable id pk ops t pcs -> op_step t (OUpdate m sk rng) = Ok (t', Some pc) ->
  exists i h, t_size t = complete_size h /\ (exists nk, leafv t i = Some (LeafNode m nk)) /\
    pc_leaf_id pc = m /\ pc_leaf_idx pc = i /\ pc_leaf_pk pc = SKey (pub sk) /\
    length (pc_path pc) = h /\
    forall k, k < h -> exists v own_key eph,
      pc_path pc !! k = Some (node k (i / 2 ^ S k), [v]) /\
      innerv t' k (i / 2 ^ S k) = Some [v] /\
      v_pk v ∈ rng /\
      nkey t' k (i / 2 ^ k) = Some own_key /\ v_encrypter v = own_key /\
      (forall x e, v_sk v !! x = Some e <->
         (x = node k (i / 2 ^ k) /\ e = encrypt_secret (v_pk v) own_key eph) \/
         (exists s k0 j0 p, s / 2 = i / 2 ^ S k /\ s <> i / 2 ^ k /\ in_resolution t k s k0 j0 /\
            nkey t k0 j0 = Some p /\ x = node k0 j0 /\ e = encrypt_secret (v_pk v) own_key p)) /\
      ((exists s k0 j0, s / 2 = i / 2 ^ S k /\ s <> i / 2 ^ k /\ in_resolution t k s k0 j0 /\ nkey t k0 j0 = Some eph)
       \/ eph ∈ rng).
Proof.
  intros R E. destruct (op_step_update _ _ _ _ _ _ _ _ _ _ R E) as (h & i & vs & rng' & V & _ & _ & Ei & EV & _ & U & ->).
  exists i, h. cbn [pc_leaf_id pc_leaf_idx pc_leaf_pk pc_path].
  pose proof (enc_versions_length _ _ _ _ _ _ _ _ EV) as Lv.
  split; [apply (sh_size _ _ (inv_shape _ _ V))|]. split; [apply (inv_ids _ _ V); exact Ei|].
  split; [reflexivity|]. split; [reflexivity|]. split; [reflexivity|].
  split; [rewrite path_of_length; exact Lv|].
  intros k Hk. destruct (lookup_lt_is_Some_2 vs k) as [v Lk]; [lia|].
  destruct (updated_sealed _ _ _ _ _ _ _ _ _ _ _ U EV Lk) as (eph & Sl & Heph).
  exists v, (v_encrypter v), eph.
  split; [apply path_of_lookup; exact Lk|].
  split.
  { change (i / 2 ^ S k) with (anc i (S k)). rewrite (up_inner _ _ _ _ _ _ _ U), decide_True by auto. rewrite Lk. reflexivity. }
  split; [apply (enc_versions_rng _ _ _ _ _ _ _ _ EV); eapply elem_of_list_lookup_2; eauto|].
  split; [apply Sl|]. split; [reflexivity|].
  assert (NB : forall k0 j0, below k0 j0 k (sib (anc i k)) -> nkey t' k0 j0 = nkey t k0 j0).
  { intros k0 j0 B. eapply updated_nkey; [exact U|]. eapply not_anc_below; [exact B|]. apply sib_neq. }
  split.
  - intros x e. rewrite (sl_entries _ _ _ _ _ Sl x e). split.
    + intros [Q|(k0 & j0 & p & Rs & K & Q)]; [left; exact Q|right].
      exists (sib (anc i k)), k0, j0, p. destruct (proj2 (sib_iff i k (sib (anc i k))) eq_refl) as [S1 S2].
      split; [exact S1|]. split; [exact S2|].
      split; [apply (in_resolution_ext t t'); auto|]. rewrite <- NB by apply Rs. auto.
    + intros [Q|(s & k0 & j0 & p & S1 & S2 & Rs & K & Q)]; [left; exact Q|right].
      assert (s = sib (anc i k)) as -> by (apply sib_iff; auto).
      exists k0, j0, p. split; [apply (in_resolution_ext t t'); auto|]. rewrite NB by apply Rs. auto.
  - destruct (resn t' k (sib (anc i k))) as [|[k0 j0] r] eqn:Rn.
    + right. apply Heph. intros k0 j0 Q. apply resn_spec in Q. rewrite Rn in Q. inversion Q.
    + left. destruct (sl_eph _ _ _ _ _ Sl k0 j0) as (k1 & j1 & R1 & K1).
      { apply resn_spec. rewrite Rn. left. }
      exists (sib (anc i k)), k1, j1. destruct (proj2 (sib_iff i k (sib (anc i k))) eq_refl) as [S1 S2].
      split; [exact S1|]. split; [exact S2|]. split; [apply (in_resolution_ext t t'); auto|].
      rewrite <- NB by apply R1. exact K1.
Qed.

Lemma leaf_nkey t h i l : Inv t h -> leafv t i = Some l -> is_Some (nkey t 0 i).
Proof.
  intros V E. destruct (inv_leaf _ _ V _ _ E) as [p Ep]. exists p. eapply nkey_leaf; eauto.
Qed.

Lemma update_reaches_exactly_members_lemma id pk ops t pcs i h :
  reachable id pk ops t pcs -> t_size t = complete_size h -> i < 2 ^ h ->
  (forall i' l, i' <> i -> leafv t i' = Some l ->
     exists k s k0 j0, (k < h /\ s / 2 = i / 2 ^ S k /\ s <> i / 2 ^ k /\ in_resolution t k s k0 j0 /\ below 0 i' k0 j0) /\
       forall k' s' k0' j0', (k' < h /\ s' / 2 = i / 2 ^ S k' /\ s' <> i / 2 ^ k' /\ in_resolution t k' s' k0' j0' /\ below 0 i' k0' j0') ->
         k' = k /\ s' = s /\ k0' = k0 /\ j0' = j0) /\
  (forall k s k0 j0, s / 2 = i / 2 ^ S k -> s <> i / 2 ^ k -> in_resolution t k s k0 j0 ->
     exists i' l, i' <> i /\ below 0 i' k0 j0 /\ leafv t i' = Some l).
Proof.
  intros R Sz Hi. destruct (reachable_inv _ _ _ _ _ R) as (h0 & V & A).
  assert (h0 = h) as ->.
  { pose proof (sh_size _ _ (inv_shape _ _ V)) as Q. rewrite Sz in Q.
    pose proof (complete_size_alt h). pose proof (complete_size_alt h0).
    destruct (Nat.lt_trichotomy h0 h) as [L|[L|L]]; [|exact L|]; pose proof (pow2_lt_mono _ _ L); lia. }
  split.
  - intros i' l N El. pose proof (inv_leaf_lt _ _ _ _ V El). pose proof (inv_next _ _ V).
    destruct (split_level i i' h) as (k & Hk & Ek); [auto|exact Hi|lia|].
    destruct (resolution_covers t k (sib (anc i k)) i') as (k0 & j0 & Rs & B).
    { apply below_0_anc. auto. }
    { eapply leaf_nkey; eauto. }
    exists k, (sib (anc i k)), k0, j0. destruct (proj2 (sib_iff i k (sib (anc i k))) eq_refl) as [S1 S2].
    split; [auto|]. intros k' s' k0' j0' (Hk' & S1' & S2' & Rs' & B').
    assert (s' = sib (anc i k')) as -> by (apply sib_iff; auto).
    assert (k' = k) as ->.
    { apply (split_level_unique i i'); [|exact Ek].
      symmetry. apply below_0_anc. eapply below_trans; [exact B'|apply Rs']. }
    split; [reflexivity|]. split; [reflexivity|].
    destruct (resolution_unique t k (sib (anc i k)) i' k0' j0' k0 j0) as [-> ->]; auto.
  - intros k s k0 j0 S1 S2 Rs.
    assert (s = sib (anc i k)) as -> by (apply sib_iff; auto).
    destruct (keyed_has_leaf t k0 j0 (inv_keyed _ _ V)) as (i' & B & [l El]); [apply Rs|].
    exists i', l. split; [|auto]. intros ->.
    assert (Q : below 0 i k (sib (anc i k))) by (eapply below_trans; [exact B|apply Rs]).
    apply below_0_anc in Q. exact (sib_neq _ Q).
Qed.

Lemma members_always_agree_lemma id pk ops t pcs :
  reachable id pk ops t pcs ->
  exists r : res secret_key, (r = Err ENoRootKey \/ exists s, r = Ok s) /\
  forall m p sks, node_key_for_id t m = Ok (SKey (pub p)) ->
    (forall q s, sks !! q = Some s -> pub s = q) -> sks !! pub p = Some p ->
    snd (decrypt_tree_secret t m sks) = r.
Proof.
  intros R. destruct (reachable_inv _ _ _ _ _ R) as (h & V & A).
  exists (match nkey t h 0 with Some rk => Ok rk | None => Err ENoRootKey end).
  split; [destruct (nkey t h 0); eauto|].
  intros m p sks Hm Hs Hp. unfold pub in *.
  apply (node_key_for_id_spec t h _ m p V A) in Hm. apply A in Hm as [i El].
  assert (Ei : t_ids t !! m = Some i) by (apply (inv_ids _ _ V); eauto).
  pose proof (decrypt_tree_secret_spec t h m i p sks (inv_shape _ _ V) (inv_keyed _ _ V) Ei
    (inv_id_range _ _ _ _ V Ei) El Hs Hp) as D.
  destruct (nkey t h 0) as [rk|].
  - destruct D as (sks' & -> & _). reflexivity.
  - rewrite D. reflexivity.
Qed.

Lemma last_pk_lookup vs cpk n v : length vs = S n -> vs !! n = Some v -> last_pk cpk vs = v_pk v.
Proof.
  revert cpk n; induction vs as [|u vs IH]; intros cpk n L E; [discriminate|].
  cbn [last_pk foldl]. destruct n as [|n].
  - injection E as ->. destruct vs; [reflexivity|discriminate].
  - cbn in E. injection L as L. exact (IH (v_pk u) n L E).
Qed.

Lemma members_agree_after_update_lemma id pk ops t pcs m sk rng t' root_sk pc sks0 rng' :
  reachable id pk ops t pcs ->
  encrypt_path t m (pub sk) {[ pub sk := sk ]} rng = Ok (t', root_sk, pc, sks0, rng') ->
  forall m' p sks, node_key_for_id t' m' = Ok (SKey (pub p)) ->
    (forall q s, sks !! q = Some s -> pub s = q) -> sks !! pub p = Some p ->
    exists sks', decrypt_tree_secret t' m' sks = (sks', Ok root_sk).
Proof.
  intros R E m' p sks Hm Hs Hp.
  assert (E' : op_step t (OUpdate m sk rng) = Ok (t', Some pc)) by (cbn [op_step]; rewrite E; reflexivity).
  destruct (op_step_update _ _ _ _ _ _ _ _ _ _ R E') as (h & i & vs & rng'' & V & V' & A' & Ei & EV & Et & U & _).
  unfold pub in *. rewrite (encrypt_path_spec t h m i sk _ rng V Ei) in E by apply lookup_singleton.
  rewrite EV in E. injection E as _ Er _ _ _.
  pose proof (sh_h _ _ (inv_shape _ _ V)) as H1.
  pose proof (enc_versions_length _ _ _ _ _ _ _ _ EV) as Lv.
  destruct (lookup_lt_is_Some_2 vs (h - 1)) as [v Lk]; [lia|].
  assert (Q : nkey t' h 0 = Some root_sk).
  { pose proof (updated_nkey_anc _ _ _ _ _ _ _ _ _ U Lk) as K. replace (S (h - 1)) with h in K by lia.
    rewrite anc_small in K by exact (inv_id_range _ _ _ _ V Ei). rewrite K, <- Er. f_equal. symmetry.
    eapply last_pk_lookup; [|exact Lk]. lia. }
  apply (node_key_for_id_spec t' h _ m' p V' A') in Hm. apply A' in Hm as [i' El].
  assert (Ei' : t_ids t' !! m' = Some i') by (apply (inv_ids _ _ V'); eauto).
  pose proof (decrypt_tree_secret_spec t' h m' i' p sks (inv_shape _ _ V') (inv_keyed _ _ V') Ei'
    (inv_id_range _ _ _ _ V' Ei') El Hs Hp) as D.
  rewrite Q in D. destruct D as (sks' & D & _). eauto.
Qed.

Lemma superseded_secrets_useless_lemma id pk ops t pcs (K : secret_key -> Prop) :
  let hist := OAdd id pk :: ops in
  reachable id pk ops t pcs -> fresh_history hist ->
  (forall s, K s -> exists n op, hist !! n = Some op /\ superseded hist n /\ op_secret op s) ->
  (forall m p, node_key_for_id t m = Ok (SKey (pub p)) -> ~ K p) ->
  forall k j p, nkey t k j = Some (pub p) -> ~ derivable K (published pcs) p.
Proof.
  cbv zeta. intros R F HK HL. destruct (reachable_si _ _ _ _ _ R (proj1 F)) as (h & V & A & Si).
  eapply current_keys_secret; eauto.
  intros m p E. apply (HL m). eapply node_key_for_id_spec; eauto.
Qed.

Lemma removed_members_locked_out_lemma id pk ops t pcs (C : member_id -> Prop) (K : secret_key -> Prop) :
  let hist := OAdd id pk :: ops in
  reachable id pk ops t pcs -> fresh_history hist ->
  (forall c, C c -> contains_id t c = false) ->
  (forall s, K s <-> exists op, op ∈ hist /\ C (op_member op) /\ op_secret op s) ->
  (forall m p, node_key_for_id t m = Ok (SKey (pub p)) -> ~ K p) ->
  forall m p sks sks' root, node_key_for_id t m = Ok (SKey (pub p)) ->
    (forall q s, sks !! q = Some s -> pub s = q) -> sks !! pub p = Some p ->
    decrypt_tree_secret t m sks = (sks', Ok root) ->
    ~ derivable K (published pcs) root.
Proof.
  cbv zeta. intros R F HC HK HL m p sks sks' root Hm Hs Hp D.
  destruct (reachable_si _ _ _ _ _ R (proj1 F)) as (h & V & A & Si).
  assert (Q : nkey t h 0 = Some root).
  { unfold pub in *. apply (node_key_for_id_spec t h _ m p V A) in Hm. apply A in Hm as [i El].
    assert (Ei : t_ids t !! m = Some i) by (apply (inv_ids _ _ V); eauto).
    pose proof (decrypt_tree_secret_spec t h m i p sks (inv_shape _ _ V) (inv_keyed _ _ V) Ei
      (inv_id_range _ _ _ _ V Ei) El Hs Hp) as D'.
    destruct (nkey t h 0) as [rk|].
    - destruct D' as (sks'' & D' & _). rewrite D in D'. injection D' as _ ->. reflexivity.
    - rewrite D in D'. discriminate. }
  eapply (superseded_secrets_useless_lemma id pk ops t pcs K R F); [|exact HL|exact Q].
  intros s Ks. apply HK in Ks as (op & Hop & Hc & Hsec).
  apply elem_of_list_lookup in Hop as [n Ln]. exists n, op. split; [exact Ln|]. split; [|exact Hsec].
  apply (absent_superseded (OAdd id pk :: ops) ∅ (op_member op) n op); auto.
  - cbn [fold_left spec_step]. rewrite decide_False by (rewrite lookup_empty; intros [? ?]; discriminate).
    rewrite insert_empty. specialize (HC _ Hc). rewrite (contains_id_spec _ _ _ _ V A) in HC.
    apply bool_decide_eq_false in HC. destruct (_ !! op_member op); [exfalso; eauto|reflexivity].
  - intros id' ->. destruct Hsec as [H|H]; [contradiction|inversion H].
Qed.
