(** Trees some of whose inner nodes hold several keys: making and applying updates. *)
From Coq Require Import Arith Lia.
From stdpp Require Import base list gmap.
From Verif Require Import ResModel KeysModel KeysProofs TreeMathModel TreeMathSpec TreeMathProofs TreeModel TreeSpec TreeOps TreeView TreeProofs TreeInv TreeRun OpsModel CgkaModel CgkaSpec CgkaProofs CgkaRow.

Lemma upd_tree_updated_wf t h id pk i vs : shape t h -> t_ids t !! id = Some i -> i < 2 ^ h -> length vs = h ->
  updated t (upd_tree t id pk i vs) id pk i h vs.
Proof.
  intros S Ei Hi Lv. unfold upd_tree. set (t1 := set_leaves t _).
  assert (Hl : i < length (t_leaves t)) by (rewrite (sh_leaves _ _ S); exact Hi).
  assert (S1 : shape t1 h) by apply shape_set_leaves, S.
  pose proof (overlay_same_outer t1 0 i vs) as SO.
  split.
  - exact Ei.
  - rewrite (so_next _ _ SO). reflexivity.
  - rewrite (so_ids _ _ SO). reflexivity.
  - eapply same_outer_shape; eauto.
  - intros i'. rewrite (same_outer_leafv _ _ _ SO). apply leafv_write. exact Hl.
  - exact Lv.
  - intros k j. rewrite (overlay_innerv t1 h) by (try exact S1; try (apply inr_leaf; exact Hi); cbn; lia).
    rewrite !Nat.sub_0_r. cbn [plus]. rewrite Lv.
    destruct (decide _) as [Q|Q], (decide _) as [Q'|Q']; try reflexivity; exfalso; [apply Q'|apply Q]; split; try lia; tauto.
Qed.

Lemma encrypt_path_wf t h id i p0 pk sks rng : shape t h -> wfk t -> t_ids t !! id = Some i -> i < 2 ^ h ->
  leafv t i = Some (LeafNode id (SKey p0)) -> sks !! pk = Some pk ->
  encrypt_path t id pk sks rng =
    match enc_versions t h 0 i pk rng with
    | None => OutOfFuel
    | Some (vs, rng') =>
        Ok (upd_tree t id pk i vs, last_pk pk vs,
            PathChange id i (SKey pk) (path_of 0 i vs) ([p0] ++ concat (map (fun n => ikeys t n.1 n.2) (above 0 i h))),
            path_sks vs sks, rng')
    end.
Proof.
  intros S W Ei Hi El0 Es.
  assert (K0 : nkey t 0 i = Some p0) by (cbn [nkey]; rewrite El0; reflexivity).
  unfold encrypt_path, node_key_for_id, leaf_index_for_id. rewrite Ei. cbn [ok_or rbind].
  rewrite leaf_to_tree_node. rewrite (node_key_nkey t h 0 i p0 S (proj2 (inr_leaf _ _) Hi) K0). cbn [rbind].
  assert (Hl : i < length (t_leaves t)) by (rewrite (sh_leaves _ _ S); exact Hi).
  rewrite write_leaf_ok by exact Hl. cbn [rbind]. rewrite Es. cbn [ok_or rbind].
  unfold upd_tree. set (t1 := set_leaves t _).
  assert (S1 : shape t1 h) by apply shape_set_leaves, S.
  assert (VL : forall i', leafv t1 i' = if decide (i' = i) then Some (LeafNode id (SKey pk)) else leafv t i').
  { intros. apply leafv_write. exact Hl. }
  assert (W1 : wfk t1).
  { split.
    - intros i' l. rewrite VL. destruct (decide _); [intros Q; injection Q as <-; cbn; eauto|apply W].
    - apply W. }
  rewrite (encrypt_path_loop_spec _ _ h) by
    (try exact S1; try exact W1; try (apply inr_leaf; exact Hi);
     rewrite (sh_size _ _ S1); pose proof (complete_size_alt h); pose proof (pow2_gt h); lia).
  rewrite Nat.sub_0_r.
  rewrite (enc_versions_ext t t1).
  - destruct (enc_versions t h 0 i pk rng) as [[vs rng']|]; [|reflexivity]. cbn [rbind].
    reflexivity.
  - intros d' k0 j0 L B. destruct k0 as [|k0]; cbn [nkey]; [|reflexivity].
    rewrite VL, decide_False; [reflexivity|]. intros ->.
    apply (below_sib_not_anc 0 i 0 i d' B); [lia|]. symmetry. apply anc_0.
Qed.

Definition add_version (o : option store) (v : version) (removed : list share_key) : store :=
  match o with Some cur => store_merge cur [v] removed | None => [v] end.

Lemma apply_nodes_gen vs removed : forall t h k j, shape t h -> inr h k j -> k + length vs <= h ->
  exists t', apply_path_nodes t (path_of k j vs) removed = Ok t' /\ same_outer t t' /\
    forall k0 j0, innerv t' k0 j0 = if decide (k <= k0 < k + length vs /\ j0 = anc j (S k0 - k))
      then (fun v => add_version (innerv t k0 j0) v removed) <$> vs !! (k0 - k) else innerv t k0 j0.
Proof.
  induction vs as [|v vs IH]; intros t h k j S Ir L.
  - exists t. split; [reflexivity|]. split; [apply same_outer_refl|]. intros k0 j0. destruct (decide _) as [[Q _]|]; [cbn in Q; lia|reflexivity].
  - unfold path_of. cbn [length] in *. rewrite above_S. cbn [zip_with apply_path_nodes]. change (nidx (k, j / 2)) with (node k (j / 2)).
    pose proof (inr_parent _ _ _ Ir ltac:(lia)) as Ip.
    assert (B : node k (j / 2) < length (t_inner t)).
    { rewrite (sh_inner _ _ S). destruct Ip. apply inner_bound; assumption. }
    destruct (lookup_lt_is_Some_2 _ _ B) as [o Eo]. rewrite Eo. cbn [expect rbind].
    set (t1 := set_inner t _).
    destruct (IH t1 h (Datatypes.S k) (j / 2)) as (t' & E & SO & V).
    + eapply same_outer_shape; [apply same_outer_set_inner|exact S].
    + exact Ip.
    + lia.
    + exists t'. split; [exact E|]. split; [eapply same_outer_trans; [apply same_outer_set_inner|exact SO]|]. intros k0 j0. rewrite V. unfold t1.
      rewrite innerv_write by exact B. destruct (decide (k0 = k /\ j0 = j / 2)) as [[-> ->]|N].
      * rewrite (decide_False (P := Datatypes.S k <= k < _ /\ _)) by lia. rewrite decide_True.
        2:{ split; [lia|]. replace (Datatypes.S k - k) with 1 by lia. symmetry. apply anc_1. }
        rewrite Nat.sub_diag. assert (Ei : innerv t k (j / 2) = o) by (unfold innerv; rewrite Eo; destruct o; reflexivity). rewrite Ei. reflexivity.
      * destruct (decide (Datatypes.S k <= k0 < _ /\ _)) as [[A ->]|N1], (decide (k <= k0 < _ /\ _)) as [[A' E0]|N2].
        -- replace (k0 - k) with (Datatypes.S (k0 - Datatypes.S k)) by lia. reflexivity.
        -- exfalso. apply N2. split; [lia|]. rewrite <- anc_S. f_equal; lia.
        -- exfalso. destruct (decide (k0 = k)) as [-> |].
           ++ apply N. split; [reflexivity|]. rewrite E0. replace (Datatypes.S k - k) with 1 by lia. apply anc_1.
           ++ apply N1. split; [lia|]. rewrite E0, <- anc_S. f_equal; lia.
        -- reflexivity.
Qed.

Lemma path_of_lookup i vs : forall k n s, path_of 0 i vs !! k = Some (n, s) <-> exists v, vs !! k = Some v /\ n = node k (anc i (S k)) /\ s = [v].
Proof.
  intros k n s. unfold path_of. rewrite lookup_zip_with_Some. split.
  - intros ([k' j'] & v & E & Ea & Ev). injection E as -> ->. exists v. split; [exact Ev|]. split; [|reflexivity].
    unfold above in Ea. rewrite (list_lookup_fmap (fun i0 => (0 + i0, anc i (S i0)))) in Ea. destruct (seq 0 (length vs) !! k) as [x|] eqn:Ex; [|discriminate].
    apply lookup_seq in Ex as [-> _]. injection Ea as <- <-. reflexivity.
  - intros (v & Ev & -> & ->). exists (k, anc i (S k)), v. split; [reflexivity|]. split; [|exact Ev].
    unfold above. rewrite (list_lookup_fmap (fun i0 => (0 + i0, anc i (S i0)))). rewrite (lookup_seq_lt 0) by (eapply lookup_lt_Some; eauto). reflexivity.
Qed.

(** Applying somebody's path to a tree of the same height. *)
Lemma apply_path_wf t h id i p0 pk vs removed : shape t h -> t_ids t !! id = Some i -> i < 2 ^ h ->
  leafv t i = Some (LeafNode id (SKey p0)) -> p0 ∈ removed -> length vs = h ->
  exists t', apply_path t (PathChange id i (SKey pk) (path_of 0 i vs) removed) = Ok t' /\
    shape t' h /\ t_next t' = t_next t /\ t_ids t' = t_ids t /\
    (forall i', leafv t' i' = if decide (i' = i) then Some (LeafNode id (SKey pk)) else leafv t i') /\
    (forall k j, innerv t' k j = if decide (k < h /\ j = anc i (S k)) then (fun v => add_version (innerv t k j) v removed) <$> vs !! k else innerv t k j).
Proof.
  intros S Ei Hi El Hp Lv. unfold apply_path. cbn [pc_leaf_id pc_leaf_idx pc_path pc_removed pc_leaf_pk]. rewrite Ei.
  rewrite (path_length_shape _ _ _ S Hi). rewrite path_of_length, Lv, !Nat.eqb_refl. cbn [andb].
  rewrite (leaf_at_shape _ _ _ S Hi), El. cbn [rbind expect l_pk].
  unfold nk_merge. rewrite decide_True by exact Hp. cbn [rbind].
  assert (Hl : i < length (t_leaves t)) by (rewrite (sh_leaves _ _ S); exact Hi).
  rewrite write_leaf_ok by exact Hl. cbn [rbind]. set (t1 := set_leaves t _).
  assert (S1 : shape t1 h) by apply shape_set_leaves, S.
  destruct (apply_nodes_gen vs removed t1 h 0 i S1) as (t' & E & SO & V); [apply inr_leaf, Hi|lia|].
  exists t'. split; [exact E|]. split; [eapply same_outer_shape; eauto|]. split; [rewrite (so_next _ _ SO); reflexivity|].
  split; [rewrite (so_ids _ _ SO); reflexivity|]. split.
  - intros i'. rewrite (same_outer_leafv _ _ _ SO). apply leafv_write, Hl.
  - intros k j. rewrite V, !Nat.sub_0_r. cbn [plus]. rewrite Lv.
    destruct (decide _) as [Q|Q], (decide _) as [Q'|Q']; try reflexivity; exfalso; [apply Q'|apply Q]; split; try lia; tauto.
Qed.

(** The height of a tree after an addition. *)
Lemma complete_size_inj a b : complete_size a = complete_size b -> a = b.
Proof.
  intros E. pose proof (complete_size_alt a). pose proof (complete_size_alt b). assert (P : 2 ^ a = 2 ^ b) by lia.
  apply Nat.pow_inj_r in P; [exact P|lia].
Qed.
Lemma push_leaf_height t h id nk t' i h' : shape t h -> 1 <= t_next t -> t_next t <= 2 ^ h -> push_leaf t id nk = Ok (t', i) -> shape t' h' ->
  (t_next t < 2 ^ h /\ h' = h) \/ (t_next t = 2 ^ h /\ h' = S h).
Proof.
  intros S N1 Hn E S'.
  assert (Sz : t_size t' = t_size (maybe_grow_tree t (t_next t))).
  { unfold push_leaf in E. apply rbind_ok in E as (t1 & E1 & E). apply rbind_ok in E as (t2 & E2 & E). injection E as <- _.
    destruct (grow_view t h S Hn) as (h1 & _ & S1 & Hlt & En & _).
    rewrite write_leaf_ok in E1 by (cbn [set_next t_leaves]; rewrite (sh_leaves _ _ S1), En; exact Hlt). injection E1 as <-.
    match type of E2 with blank_path ?x _ = _ => assert (Sx : shape x h1) end.
    { destruct S1. split; cbn; rewrite ?insert_length; assumption. }
    rewrite En in E2. destruct (blank_leaf_path_spec _ h1 (t_next t) Sx Hlt) as (t3 & E3 & SO & _). rewrite En in E3. rewrite E2 in E3. injection E3 as <-.
    rewrite (so_size _ _ SO). reflexivity. }
  rewrite (sh_size _ _ S') in Sz. unfold maybe_grow_tree in Sz. rewrite (sh_size _ _ S) in Sz.
  rewrite size_from_leaf_count_complete in Sz by exact N1.
  pose proof (Nat.log2_spec (t_next t) ltac:(lia)) as [L1 L2].
  destruct (Nat.leb_spec (complete_size (Nat.log2 (t_next t) + 1)) (complete_size h)) as [L|L].
  - left. split; [|apply complete_size_inj; rewrite Sz; apply S].
    assert (Q : Nat.log2 (t_next t) + 1 <= h).
    { destruct (Nat.le_gt_cases (Nat.log2 (t_next t) + 1) h) as [|G]; [assumption|exfalso].
      pose proof (complete_size_alt h). pose proof (complete_size_alt (Nat.log2 (t_next t) + 1)). pose proof (pow2_lt_mono _ _ G). lia. }
    pose proof (pow2_mono _ _ Q) as C. rewrite Nat.add_1_r in C. lia.
  - right. split.
    + assert (Q : h < Nat.log2 (t_next t) + 1).
      { destruct (Nat.lt_ge_cases h (Nat.log2 (t_next t) + 1)) as [|G]; [assumption|exfalso].
        pose proof (complete_size_alt h). pose proof (complete_size_alt (Nat.log2 (t_next t) + 1)). pose proof (pow2_mono _ _ G). lia. }
      pose proof (pow2_mono h (Nat.log2 (t_next t)) ltac:(lia)). lia.
    + apply complete_size_inj. rewrite Sz. unfold grow_tree_to_size. cbn [t_size]. apply size_inc_complete.
Qed.

(** [remove_id] on a tree whose inner nodes may have several keys (compare [TreeInv.remove_id_spec]). *)
Lemma remove_id_wf t h id i : shape t h -> wfk t -> t_next t <= 2 ^ h ->
  (forall id i, t_ids t !! id = Some i <-> exists nk, leafv t i = Some (LeafNode id nk)) -> (forall id i, t_ids t !! id = Some i -> i < t_next t) ->
  t_ids t !! id = Some i -> size (t_ids t) <> 1 ->
  exists t' m ks, remove_id t id = Ok (t', (i, ks)) /\ removed t t' id i h m.
Proof.
  intros S WF Nx St Lo Ei Nc. assert (Hi : i < 2 ^ h) by (apply Lo in Ei; lia).
  unfold remove_id. destruct (Nat.eqb_spec (member_count t) 1); [contradiction|].
  unfold leaf_index_for_id. rewrite Ei. cbn [ok_or rbind].
  rewrite leaf_to_tree_node, (sh_size _ _ S), direct_path_node
    by (apply in_tree_node; [lia|rewrite Nat.sub_0_r; exact Hi]).
  rewrite (path_keys_ok t h 0 i (h - 0) S WF) by (try apply inr_leaf; lia).
  rewrite Nat.sub_0_r. cbn [rbind]. unfold blank_leaf_and_path.
  assert (Hl : i < length (t_leaves t)) by (rewrite (sh_leaves _ _ S); exact Hi).
  rewrite write_leaf_ok by exact Hl. cbn [rbind].
  set (t1 := set_leaves t _).
  assert (S1 : shape t1 h).
  { destruct S. split; cbn [t1 set_leaves t_size t_leaves t_inner]; rewrite ?insert_length; assumption. }
  destruct (blank_leaf_path_spec t1 h i S1 Hi) as (t2 & E2 & SO & V2). rewrite E2. cbn [rbind].
  set (t3 := set_ids t2 _).
  pose proof (same_outer_shape _ _ _ SO S1) as S2.
  assert (S3 : shape t3 h) by (destruct S2; split; assumption).
  assert (VL : forall i', leafv t3 i' = if decide (i' = i) then None else leafv t i').
  { intros i'. change (leafv t3 i') with (leafv t2 i'). rewrite (same_outer_leafv _ _ _ SO).
    apply leafv_write. exact Hl. }
  assert (VI : forall k0 j0, innerv t3 k0 j0 = if decide (k0 < h /\ j0 = anc i (Datatypes.S k0)) then None else innerv t k0 j0).
  { intros k0 j0. change (innerv t3 k0 j0) with (innerv t2 k0 j0). rewrite V2. reflexivity. }
  assert (N3 : t_next t3 = t_next t).
  { change (t_next t3) with (t_next t2). rewrite (so_next _ _ SO). reflexivity. }
  destruct (collect_tombstones_spec (t_next t3) t3 h S3) as (t' & m & E & Em & Lm & Hm & Hb & EL & EI & S' & HM & HN & HS).
  - rewrite N3. exact Nx.
  - lia.
  - (* another member is left *)
    assert (exists id' i', id' <> id /\ t_ids t !! id' = Some i') as (id' & i' & Nid & Ei').
    { destruct (decide (delete id (t_ids t) = ∅)) as [D|D].
      - exfalso. apply Nc.
        assert (Q : size (delete id (t_ids t)) = size (t_ids t) - 1).
        { rewrite map_size_delete, Ei. cbn. lia. }
        rewrite D, map_size_empty in Q.
        assert (size (t_ids t) <> 0).
        { intros Z. apply map_size_empty_inv in Z. rewrite Z in Ei. rewrite lookup_empty in Ei. discriminate. }
        lia.
      - apply map_choose in D as (id' & i' & D). apply lookup_delete_Some in D as [? ?]. eauto. }
    pose proof (Lo _ _ Ei') as Li'. apply St in Ei' as [nk El]. exists i'. rewrite N3, VL.
    split; [exact Li'|]. destruct (decide (i' = i)) as [->|]; [|eauto].
    exfalso. apply St in Ei as [nk' El']. rewrite El' in El. injection El as -> _. contradiction.
  - rewrite E. cbn [rbind]. eexists t', m, _. split; [reflexivity|]. rewrite N3 in *.
    assert (VL' : forall i', leafv t' i' = leafv t3 i') by (intros; unfold leafv; rewrite EL; reflexivity).
    split.
    + exact S'.
    + exact Ei.
    + exact Em.
    + exact Lm.
    + rewrite VL'. exact Hm.
    + intros i'. rewrite VL'. apply VL.
    + intros i' L. rewrite VL'. apply Hb. exact L.
    + rewrite EI. unfold t3. cbn [set_ids t_ids]. rewrite (so_ids _ _ SO). reflexivity.
    + intros k j. destruct (HM k j) as [|Q]; [auto|]. rewrite Q, VI. destruct (decide _); auto.
    + intros k i' [->|L] Hk.
      * destruct (HM k (anc i (Datatypes.S k))) as [|Q]; [auto|]. rewrite Q, VI, decide_True by auto. reflexivity.
      * apply HN; assumption.
    + intros k j Nj. rewrite HS by (intros; apply Nj; auto). rewrite VI, decide_False; [reflexivity|].
      intros [_ Q]. apply (Nj i); auto.
Qed.
