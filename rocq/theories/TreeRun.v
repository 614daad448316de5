(** Uncontended histories: the invariant holds in every reachable tree, and what it gives. *)
From Coq Require Import Arith Lia.
From stdpp Require Import base list gmap.
From Verif Require Import ResModel KeysModel TreeModel TreeMathModel TreeMathSpec TreeMathProofs TreeSpec TreeOps TreeView TreeProofs TreeInv.

(** ** One operation *)
Inductive step_ok (t : tree) (h : nat) (g : group) : tree_op -> tree -> option path_change -> Prop :=
| so_nop op : spec_step g op = g -> (forall id sk rng, op <> OUpdate id sk rng) ->
    (forall id, op = ORemove id -> g !! id = None) -> (forall id pk, op = OAdd id pk -> is_Some (g !! id)) ->
    step_ok t h g op t None
| so_add id pk t' i h' : g !! id = None -> h <= h' -> added t t' id (SKey pk) i h' ->
    step_ok t h g (OAdd id pk) t' None
| so_remove id i m t' : is_Some (g !! id) -> removed t t' id i h m -> step_ok t h g (ORemove id) t' None
| so_update id sk rng i vs rng' :
    t_ids t !! id = Some i -> enc_versions t h 0 i sk rng = Some (vs, rng') ->
    updated t (upd_tree t id sk i vs) id sk i h vs ->
    step_ok t h g (OUpdate id sk rng) (upd_tree t id sk i vs)
      (Some (PathChange id i (SKey sk) (path_of 0 i vs)
              (match nkey t 0 i with Some p => [p] | None => [] end ++
               concat (map (fun n => ikeys t n.1 n.2) (above 0 i h))))).

Lemma contains_id_spec t h g id : Inv t h -> abs_group t g -> contains_id t id = bool_decide (is_Some (g !! id)).
Proof.
  intros V A. unfold contains_id. apply bool_decide_ext. eapply abs_ids; eauto.
Qed.

Lemma op_step_inv t h g op t' o : Inv t h -> abs_group t g -> op_step t op = Ok (t', o) ->
  exists h', h <= h' /\ Inv t' h' /\ abs_group t' (spec_step g op) /\ step_ok t h g op t' o.
Proof.
  intros V A E. destruct op as [id pk|id|id sk rng]; cbn [op_step] in E.
  - rewrite (contains_id_spec _ _ _ _ V A) in E.
    destruct (bool_decide_reflect (is_Some (g !! id))) as [C|C].
    + injection E as <- <-. exists h. cbn [spec_step]. rewrite decide_True by exact C.
      split; [lia|]. split; [exact V|]. split; [exact A|]. apply so_nop; try discriminate.
      * cbn [spec_step]. rewrite decide_True by exact C. reflexivity.
      * intros ? ? Q. injection Q as <- <-. exact C.
    + assert (N : g !! id = None) by (destruct (g !! id); [exfalso; eauto|reflexivity]).
      assert (Ni : t_ids t !! id = None).
      { destruct (t_ids t !! id) as [i|] eqn:Q; [|reflexivity]. exfalso. apply C. eapply abs_ids; eauto. }
      destruct (push_leaf_inv t h g id pk V A Ni) as (t1 & i & h' & E1 & V1 & Hh & D & A1).
      rewrite E1 in E. cbn [rbind] in E. injection E as <- <-. exists h'. split; [exact Hh|].
      split; [exact V1|]. cbn [spec_step]. rewrite decide_False by exact C. split; [exact A1|].
      eapply so_add; eauto.
  - rewrite (contains_id_spec _ _ _ _ V A) in E.
    destruct (bool_decide_reflect (is_Some (g !! id))) as [C|C].
    + destruct (Nat.eqb_spec (member_count t) 1); [discriminate|].
      destruct (proj2 (abs_ids t h g id V A) C) as [i Ei].
      destruct (remove_id_spec t h id i V Ei n) as (t1 & m & E1 & R).
      rewrite E1 in E. cbn [rbind] in E. injection E as <- <-. exists h.
      destruct (remove_id_inv _ _ _ _ _ _ _ V A R) as [V1 A1].
      split; [lia|]. split; [exact V1|]. split; [exact A1|]. eapply so_remove; eauto.
    + injection E as <- <-. assert (N : g !! id = None) by (destruct (g !! id); [exfalso; eauto|reflexivity]).
      assert (Q : delete id g = g) by (apply delete_notin; exact N).
      exists h. cbn [spec_step]. rewrite Q. split; [lia|]. split; [exact V|]. split; [exact A|].
      apply so_nop; try discriminate; [exact Q|]. intros ? Q'. injection Q' as <-. exact N.
  - destruct (t_ids t !! id) as [i|] eqn:Ei.
    + unfold pub in E. rewrite (encrypt_path_spec t h id i sk _ rng V Ei) in E by apply lookup_singleton.
      destruct (enc_versions t h 0 i sk rng) as [[vs rng']|] eqn:EV; [|discriminate]. cbn [rbind] in E.
      injection E as <- <-. exists h. split; [lia|].
      pose proof (upd_tree_updated t h id sk i vs V Ei (enc_versions_length _ _ _ _ _ _ _ _ EV)) as U.
      destruct (updated_inv _ _ _ _ _ _ _ _ _ _ V A EV U) as [V1 A1].
      split; [exact V1|]. split; [exact A1|]. eapply so_update; eauto.
    + unfold encrypt_path, leaf_index_for_id in E. rewrite Ei in E. discriminate.
Qed.

Lemma run_snoc t ops op t' pcs : run t (ops ++ [op]) = Ok (t', pcs) ->
  exists t1 pcs1 o, run t ops = Ok (t1, pcs1) /\ op_step t1 op = Ok (t', o) /\
    pcs = pcs1 ++ match o with Some pc => [pc] | None => [] end.
Proof.
  revert t pcs; induction ops as [|op0 ops IH]; intros t pcs E; cbn [app run] in E.
  - destruct (op_step t op) as [[t1 o]| | |] eqn:E1; cbn in E; try discriminate.
    injection E as <- <-. exists t, [], o. split; [reflexivity|]. split; [exact E1|]. destruct o; reflexivity.
  - destruct (op_step t op0) as [[t1 o]| | |] eqn:E1; cbn [rbind] in E; try discriminate.
    destruct (run t1 (ops ++ [op])) as [[t2 pcs2]| | |] eqn:E2; cbn [rbind] in E; try discriminate.
    injection E as <- <-. destruct (IH _ _ E2) as (t3 & pcs3 & o3 & R & St & ->).
    exists t3, (match o with Some pc => pc :: pcs3 | None => pcs3 end), o3.
    split; [cbn [run]; rewrite E1; cbn [rbind]; rewrite R; reflexivity|]. split; [exact St|].
    destruct o; reflexivity.
Qed.

Lemma run_inv t h g ops t' pcs : Inv t h -> abs_group t g -> run t ops = Ok (t', pcs) ->
  exists h', Inv t' h' /\ abs_group t' (fold_left spec_step ops g).
Proof.
  revert t h g pcs; induction ops as [|op ops IH]; intros t h g pcs V A E; cbn [run] in E.
  - injection E as <- <-. eauto.
  - destruct (op_step t op) as [[t1 o]| | |] eqn:E1; cbn [rbind] in E; try discriminate.
    destruct (run t1 ops) as [[t2 pcs2]| | |] eqn:E2; cbn [rbind] in E; try discriminate.
    injection E as <- <-. destruct (op_step_inv _ _ _ _ _ _ V A E1) as (h1 & _ & V1 & A1 & _).
    cbn [fold_left]. eapply IH; eauto.
Qed.

(** Trees reachable by uncontended histories. *)
Definition reachable (id : member_id) (pk : share_key) (ops : list tree_op) (t : tree) (pcs : list path_change) : Prop :=
  exists t0, tree_new id pk = Ok t0 /\ run t0 ops = Ok (t, pcs).

Lemma reachable_inv id pk ops t pcs : reachable id pk ops t pcs ->
  exists h, Inv t h /\ abs_group t (fold_left spec_step ops {[ id := pk ]}).
Proof.
  intros (t0 & E0 & E). destruct (tree_new_inv id pk) as (t0' & E0' & V & A).
  rewrite E0' in E0. injection E0 as <-. eapply run_inv; eauto.
Qed.

(** ** No operation panics *)
Lemma op_step_total t h g op : Inv t h -> abs_group t g ->
  (forall id sk rng, op = OUpdate id sk rng -> 2 * t_size t <= length rng) ->
  (exists t' o, op_step t op = Ok (t', o)) \/
  (op_step t op = Err ERemoveLastMember /\ exists m p, op = ORemove m /\ g = {[ m := p ]}) \/
  (op_step t op = Err EIdentifierNotFound /\ exists m sk rng, op = OUpdate m sk rng /\ g !! m = None).
Proof.
  intros V A Hr. destruct op as [id pk|id|id sk rng]; cbn [op_step].
  - left. rewrite (contains_id_spec _ _ _ _ V A).
    destruct (bool_decide_reflect (is_Some (g !! id))) as [C|C]; [eauto|].
    assert (Ni : t_ids t !! id = None).
    { destruct (t_ids t !! id) as [i|] eqn:Q; [|reflexivity]. exfalso. apply C. eapply abs_ids; eauto. }
    destruct (push_leaf_inv t h g id pk V A Ni) as (t1 & i & h' & E1 & _). rewrite E1. cbn [rbind]. eauto.
  - rewrite (contains_id_spec _ _ _ _ V A).
    destruct (bool_decide_reflect (is_Some (g !! id))) as [C|C]; [|eauto].
    destruct (Nat.eqb_spec (member_count t) 1) as [E|E].
    + right; left. split; [reflexivity|]. rewrite (abs_size _ _ _ V A) in E.
      destruct C as [p Ep]. exists id, p. split; [reflexivity|].
      apply map_eq. intros id'. destruct (decide (id' = id)) as [->|N].
      * rewrite lookup_singleton. exact Ep.
      * rewrite lookup_singleton_ne by congruence. destruct (g !! id') as [p'|] eqn:Ep'; [|reflexivity].
        exfalso. assert (Q : size (delete id' (delete id g)) = 0 - 1 \/ True) by (right; exact I). clear Q.
        assert (Q1 : size (delete id g) = 0) by (rewrite map_size_delete, Ep; cbn; lia).
        apply map_size_empty_inv in Q1. assert (delete id g !! id' = Some p') by (rewrite lookup_delete_ne; auto).
        rewrite Q1, lookup_empty in H. discriminate.
    + left. destruct (proj2 (abs_ids t h g id V A) C) as [i Ei].
      destruct (remove_id_spec t h id i V Ei E) as (t1 & m & E1 & R). rewrite E1. cbn [rbind]. eauto.
  - destruct (t_ids t !! id) as [i|] eqn:Ei.
    + left. unfold pub. rewrite (encrypt_path_spec t h id i sk _ rng V Ei) by apply lookup_singleton.
      destruct (enc_versions_total t h 0 i sk rng) as [[vs rng'] EV].
      { specialize (Hr _ _ _ eq_refl). rewrite (sh_size _ _ (inv_shape _ _ V)) in Hr.
        pose proof (complete_size_alt h). pose proof (pow2_gt h). lia. }
      rewrite EV. cbn [rbind]. eauto.
    + right; right. unfold encrypt_path, leaf_index_for_id. rewrite Ei. split; [reflexivity|].
      exists id, sk, rng. split; [reflexivity|]. destruct (g !! id) as [p|] eqn:Q; [|reflexivity].
      exfalso. destruct (proj2 (abs_ids t h g id V A)) as [i Ei']; [eauto|]. congruence.
Qed.

(** ** Replicas that apply an update end up with the updater's tree *)
Lemma filter_none {A} (P : A -> Prop) `{!forall x, Decision (P x)} (l : list A) :
  (forall x, x ∈ l -> ~ P x) -> filter P l = [].
Proof.
  induction l as [|x l IH]; intros HN; [reflexivity|].
  rewrite filter_cons_False by (apply HN; left). apply IH. intros; apply HN; right; assumption.
Qed.

Lemma apply_path_nodes_spec t h k j vs removed : shape t h -> inr h k j -> k + length vs <= h ->
  (forall d, d < length vs -> forall p, p ∈ ikeys t (k + d) (anc j (S d)) -> p ∈ removed) ->
  (forall k0 j0 s, innerv t k0 j0 = Some s -> s <> []) ->
  apply_path_nodes t (path_of k j vs) removed = Ok (overlay t k j vs).
Proof.
  intros S. revert t k j S; induction vs as [|v vs IH]; intros t k j S I L H NE; [reflexivity|].
  unfold path_of. cbn [length] in *. rewrite above_S. cbn [zip_with apply_path_nodes overlay].
  unfold nidx at 1. cbn [fst snd].
  pose proof (inr_parent _ _ _ I ltac:(lia)) as Ip.
  assert (B : node k (j / 2) < length (t_inner t)).
  { rewrite (sh_inner _ _ S). destruct Ip. apply inner_bound; assumption. }
  destruct (lookup_lt_is_Some_2 _ _ B) as [o Eo]. rewrite Eo. cbn [expect rbind].
  assert (Q : match o with Some cur => store_merge cur [v] removed | None => [v] end = [v]).
  { destruct o as [cur|]; [|reflexivity]. unfold store_merge.
    replace (remove_keys_from cur removed) with (@nil version); [reflexivity|].
    symmetry. unfold remove_keys_from. apply filter_none. intros u Hu Nu. apply Nu.
    apply (H 0 ltac:(lia)). rewrite Nat.add_0_r, anc_1. unfold ikeys, innerv. rewrite Eo. cbn.
    apply elem_of_list_fmap. eauto. }
  rewrite Q. apply IH.
  - eapply same_outer_shape; [apply same_outer_set_inner|exact S].
  - exact Ip.
  - lia.
  - intros d Ld p Hp. apply (H (Datatypes.S d) ltac:(lia)). rewrite anc_S.
    replace (k + Datatypes.S d) with (Datatypes.S k + d) by lia.
    unfold ikeys in *. rewrite innerv_write in Hp by exact B.
    destruct (decide _); [lia|exact Hp].
  - intros k0 j0 s. rewrite innerv_write by exact B. destruct (decide _); [intros Q'; injection Q' as <-; discriminate|apply NE].
Qed.

Lemma path_of_length k j vs : length (path_of k j vs) = length vs.
Proof. unfold path_of. rewrite zip_with_length, above_length. lia. Qed.

Lemma apply_path_spec t h id i sk vs : Inv t h -> t_ids t !! id = Some i -> length vs = h ->
  apply_path t (PathChange id i (SKey sk) (path_of 0 i vs)
              (match nkey t 0 i with Some p => [p] | None => [] end ++
               concat (map (fun n => ikeys t n.1 n.2) (above 0 i h)))) = Ok (upd_tree t id sk i vs).
Proof.
  intros V Ei Lv. pose proof (inv_shape _ _ V) as S. pose proof (inv_id_range _ _ _ _ V Ei) as Hi.
  destruct (proj1 (inv_ids _ _ V _ _) Ei) as [nk0 El0].
  destruct (inv_leaf _ _ V _ _ El0) as [p0 Ep]. cbn in Ep. subst nk0.
  assert (K0 : nkey t 0 i = Some p0) by (cbn [nkey]; rewrite El0; reflexivity). rewrite K0.
  unfold apply_path. cbn [pc_leaf_id pc_leaf_idx pc_path pc_removed pc_leaf_pk]. rewrite Ei.
  unfold path_length_for. rewrite leaf_to_tree_node, (sh_size _ _ S), direct_path_node
    by (apply in_tree_node; [lia|rewrite Nat.sub_0_r; exact Hi]).
  rewrite up_path_length, path_of_length, Lv, Nat.sub_0_r, !Nat.eqb_refl. cbn [andb].
  rewrite (leaf_at_shape _ _ _ S Hi), El0. cbn [rbind expect l_pk].
  unfold nk_merge. rewrite decide_True by (left). cbn [rbind].
  assert (Hl : i < length (t_leaves t)) by (rewrite (sh_leaves _ _ S); exact Hi).
  rewrite write_leaf_ok by exact Hl. cbn [rbind]. unfold upd_tree.
  apply (apply_path_nodes_spec _ h).
  - destruct S. split; cbn [set_leaves t_size t_leaves t_inner]; rewrite ?insert_length; assumption.
  - apply inr_leaf. exact Hi.
  - lia.
  - intros d Ld p Hp. apply elem_of_app. right. apply elem_of_list_In, in_concat.
    exists (ikeys t d (anc i (Datatypes.S d))). split; [|apply elem_of_list_In; exact Hp].
    apply in_map_iff. exists (d, anc i (Datatypes.S d)). split; [reflexivity|].
    unfold above. apply in_map_iff. exists d. split; [reflexivity|]. apply in_seq. lia.
  - intros k0 j0 s Q ->. exact (wf_inner _ (inv_wfk _ _ V) _ _ Q).
Qed.

(** ** Coverage *)

(** The node whose resolution covers leaf [i'] when leaf [i] updates: the child of the
    lowest common ancestor on the side of [i']. *)
Lemma split_level i i' h : i <> i' -> i < 2 ^ h -> i' < 2 ^ h ->
  exists k, k < h /\ anc i' k = sib (anc i k).
Proof.
  intros N Hi Hi'.
  assert (Q : forall d, anc i d = anc i' d -> exists k, k < d /\ anc i' k = sib (anc i k)).
  { induction d as [|d IH]; intros E.
    - rewrite !anc_0 in E. contradiction.
    - rewrite !anc_S' in E. destruct (decide (anc i d = anc i' d)) as [E'|N'].
      + destruct (IH E') as (k & ? & ?). exists k. split; [lia|assumption].
      + exists d. split; [lia|]. destruct (same_half (anc i' d) (anc i d)); [auto|congruence|assumption]. }
  destruct (Q h) as (k & L & E); [rewrite !anc_small by assumption; reflexivity|]. eauto.
Qed.
Lemma split_level_unique i i' k1 k2 : anc i' k1 = sib (anc i k1) -> anc i' k2 = sib (anc i k2) -> k1 = k2.
Proof.
  assert (Q : forall a b, a < b -> anc i' a = sib (anc i a) -> anc i' b = sib (anc i b) -> False).
  { intros a b L E1 E2.
    assert (E : anc i' (S a) = anc i (S a)) by (rewrite !anc_S', E1, sib_div2; reflexivity).
    replace b with (S a + (b - S a)) in E2 by lia. rewrite <- !anc_anc, E in E2.
    symmetry in E2. exact (sib_neq _ E2). }
  intros E1 E2. destruct (Nat.lt_trichotomy k1 k2) as [L|[E|L]]; [exfalso; eauto|exact E|exfalso; eauto].
Qed.

(** A keyed leaf below [(k, j)] lies below exactly one node of its resolution. *)
Lemma resolution_covers t k j i : below 0 i k j -> is_Some (nkey t 0 i) ->
  exists k0 j0, in_resolution t k j k0 j0 /\ below 0 i k0 j0.
Proof.
  revert j; induction k as [|k IH]; intros j B K.
  - apply below_level_eq in B as E. subst j. exists 0, i. split; [|apply below_refl].
    split; [apply below_refl|]. split; [exact K|]. intros k1 j1 L [? _] [? _]. lia.
  - destruct (nkey t (S k) j) as [p|] eqn:Kj.
    + exists (S k), j. split; [|exact B]. split; [apply below_refl|]. split; [eauto|].
      intros k1 j1 L _ [? _]. lia.
    + destruct (below_S_inv _ _ _ _ B) as [[? _]|B']; [lia|].
      assert (exists c, c / 2 = j /\ below 0 i k c) as (c & Ec & Bc).
      { destruct B' as [B'|B']; [exists (2 * j)|exists (2 * j + 1)]; split; auto; [apply half_even|apply half_odd]. }
      destruct (IH c Bc K) as (k0 & j0 & (R1 & R2 & R3) & B0). exists k0, j0. split; [|exact B0].
      assert (Bcj : below k c (S k) j).
      { split; [lia|]. replace (S k - k) with 1 by lia. rewrite Nat.pow_1_r. exact Ec. }
      split; [eapply below_trans; eauto|]. split; [exact R2|].
      intros k1 j1 L1 B1 B2. destruct (decide (k1 = S k)) as [->|N1].
      * apply below_level_eq in B2. subst. exact Kj.
      * apply (R3 k1 j1 L1 B1). eapply below_mid; [exact R1|exact B1|]. destruct B2. lia.
Qed.
Lemma resolution_unique t k j i k0 j0 k1 j1 :
  in_resolution t k j k0 j0 -> below 0 i k0 j0 -> in_resolution t k j k1 j1 -> below 0 i k1 j1 ->
  k0 = k1 /\ j0 = j1.
Proof.
  assert (Q : forall k0 j0 k1 j1, in_resolution t k j k0 j0 -> below 0 i k0 j0 -> in_resolution t k j k1 j1 ->
    below 0 i k1 j1 -> k0 < k1 -> False).
  { intros a b c d (A1 & A2 & A3) A4 (B1 & [p B2] & B3) B4 L.
    rewrite (A3 c d L) in B2; [discriminate| |exact B1].
    eapply below_mid; [exact B4|exact A4|lia]. }
  intros A1 A2 B1 B2. destruct (Nat.lt_trichotomy k0 k1) as [L|[E|L]].
  - exfalso. eapply (Q k0 j0 k1 j1); eauto.
  - split; [exact E|]. subst k1. eapply below_disjoint; [exact A2|exact B2].
  - exfalso. eapply (Q k1 j1 k0 j0); eauto.
Qed.

(** Every keyed node has an occupied leaf below it. *)
Lemma keyed_has_leaf t k j : keyed t -> is_Some (nkey t k j) ->
  exists i, below 0 i k j /\ is_Some (leafv t i).
Proof.
  intros KY. revert j; induction k as [|k IH]; intros j [p K].
  - exists j. split; [apply below_refl|]. apply nkey_leaf_inv in K as [id ->]. eauto.
  - apply nkey_inner in K as (v & Ev & _). destruct (ky_ok _ KY _ _ _ Ev) as (c & eph & Ec & Sl).
    destruct (IH c) as (i & B & Hi); [rewrite (sl_enc _ _ _ _ _ Sl); eauto|].
    exists i. split; [|exact Hi]. eapply below_trans; [exact B|].
    split; [lia|]. replace (S k - k) with 1 by lia. rewrite Nat.pow_1_r. exact Ec.
Qed.

Lemma path_of_lookup i vs k v : vs !! k = Some v -> path_of 0 i vs !! k = Some (node k (anc i (S k)), [v]).
Proof.
  intros L. unfold path_of. rewrite lookup_zip_with. unfold above.
  assert (Lk : k < length vs) by (eapply lookup_lt_Some; eauto).
  rewrite list_lookup_fmap, lookup_seq_lt by exact Lk. cbn. rewrite L. reflexivity.
Qed.
