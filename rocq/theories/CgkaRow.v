(** Key trees of groups that only grow: the leaves stand in a row without holes. *)
From Coq Require Import Arith Lia.
From stdpp Require Import base list gmap.
From Verif Require Import ResModel KeysModel KeysProofs TreeMathModel TreeMathSpec TreeMathProofs TreeModel TreeSpec TreeView
  OpsModel CgkaModel CgkaSpec CgkaProofs CgkaReplay CgkaConverge.

(** The tree has height [h] and holds exactly the leaves [ls], from the left. *)
Record rowed (t : tree) (h : nat) (ls : list leaf_node) : Prop := Rowed {
  rw_shape : shape t h;
  rw_next : t_next t = length ls;
  rw_fit : length ls <= 2 ^ h;
  rw_leaf : forall i, leafv t i = ls !! i
}.
(** Every leaf is found under its identifier. *)
Definition found (t : tree) (ls : list leaf_node) : Prop := forall i l, ls !! i = Some l -> t_ids t !! l_id l = Some i.
Definition only (t : tree) (ids : list member_id) : Prop := forall id, is_Some (t_ids t !! id) -> id ∈ ids.

Lemma push_rowed t h ls l : rowed t h ls -> exists t' h', push_leaf t (l_id l) (l_pk l) = Ok (t', length ls) /\
  h <= h' /\ rowed t' h' (ls ++ [l]) /\ t_ids t' = <[l_id l := length ls]> (t_ids t).
Proof.
  intros [S N F L]. destruct (push_leaf_spec t h (l_id l) (l_pk l) S ltac:(lia)) as (t' & i & h' & E & Hh & A).
  destruct A as [As Ai Al An Aids Aleaf _]. rewrite N in Ai. subst i. exists t', h'. split; [exact E|]. split; [exact Hh|]. split; [|exact Aids].
  constructor; [exact As|rewrite An, app_length; reflexivity|rewrite app_length; cbn; lia|]. intros i. rewrite Aleaf, L.
  destruct (decide (i = length ls)) as [-> |Ni].
  - rewrite lookup_app_r by lia. rewrite Nat.sub_diag. destruct l; reflexivity.
  - destruct (decide (i < length ls)); [rewrite lookup_app_l by lia; reflexivity|].
    rewrite (lookup_ge_None_2 ls) by lia. rewrite lookup_ge_None_2; [reflexivity|]. rewrite app_length. cbn. lia.
Qed.

Lemma shape_set_leaves t h i l : shape t h -> shape (set_leaves t (<[i := l]> (t_leaves t))) h.
Proof. intros [A B C D]. split; [exact A|exact B|cbn; rewrite insert_length; exact C|exact D]. Qed.

Lemma pop_rowed t h ls l : rowed t h (ls ++ [l]) -> exists t', blank_leaf_and_path t (length ls) = Ok t' /\
  rowed (set_next t' (length ls)) h ls /\ t_ids t' = t_ids t.
Proof.
  intros [S N F L]. rewrite app_length in N, F. cbn in N, F. unfold blank_leaf_and_path.
  rewrite write_leaf_ok by (rewrite (sh_leaves _ _ S); lia). cbn [rbind].
  set (t1 := set_leaves t _). assert (S1 : shape t1 h) by apply shape_set_leaves, S.
  destruct (blank_leaf_path_spec t1 h (length ls) S1 ltac:(lia)) as (t' & E & SO & _). exists t'. split; [exact E|].
  pose proof (same_outer_shape _ _ _ SO S1) as S'. split; [|rewrite (so_ids _ _ SO); reflexivity].
  constructor; [destruct S'; split; assumption|reflexivity|lia|]. intros i.
  change (leafv (set_next t' (length ls)) i) with (leafv t' i). rewrite (same_outer_leafv _ _ _ SO). unfold t1.
  rewrite leafv_write by (rewrite (sh_leaves _ _ S); lia). rewrite L. destruct (decide (i = length ls)) as [-> |Ni].
  - rewrite lookup_ge_None_2 by lia. reflexivity.
  - destruct (decide (i < length ls)); [rewrite lookup_app_l by lia; reflexivity|].
    rewrite (lookup_ge_None_2 ls) by lia. apply lookup_ge_None_2. rewrite app_length. cbn. lia.
Qed.

(** ** Popping and pushing several *)
Lemma pop_all suf : forall pre t h fuel acc, rowed t h (pre ++ suf) -> NoDup (map l_id suf) -> t_next t <= fuel ->
  exists t', pop_added fuel t (list_to_set (map l_id suf)) acc = Ok (t', acc ++ reverse suf) /\ rowed t' h pre /\ t_ids t' = t_ids t.
Proof.
  induction suf as [|l suf IH] using rev_ind; intros pre t h fuel acc R ND Hf.
  - exists t. cbn [map list_to_set]. rewrite app_nil_r in R. rewrite app_nil_r. destruct fuel; cbn [pop_added]; (destruct (decide _); [|congruence]); auto.
  - rewrite (app_assoc pre) in R. pose proof (rw_next _ _ _ R) as N. rewrite app_length in N. cbn in N. rewrite Nat.add_1_r in N.
    rewrite map_app in *. apply NoDup_app in ND as (ND & Nl & _).
    assert (Ne : list_to_set (map l_id suf ++ map l_id [l]) <> (∅ : gset member_id)).
    { rewrite list_to_set_app_L. cbn. intros Z. assert (Q : l_id l ∈ (∅ : gset member_id)) by (rewrite <- Z; set_solver). set_solver. }
    destruct fuel as [|fuel]; [lia|]. cbn [pop_added]. destruct (decide _) as [Z|_]; [exfalso; exact (Ne Z)|]. rewrite N.
    rewrite (leaf_at_shape _ _ _ (rw_shape _ _ _ R)) by (pose proof (rw_fit _ _ _ R) as F; rewrite app_length in F; cbn in F; lia).
    rewrite (rw_leaf _ _ _ R), lookup_app_r by lia. rewrite Nat.sub_diag. cbn [rbind lookup list_lookup].
    destruct (pop_rowed _ _ _ _ R) as (t1 & E & R1 & Ids). rewrite E. cbn [rbind].
    replace (list_to_set (map l_id suf ++ map l_id [l]) ∖ {[ l_id l ]}) with (list_to_set (map l_id suf) : gset member_id).
    2:{ rewrite list_to_set_app_L. cbn. apply set_eq. intros x. rewrite elem_of_difference, elem_of_union, elem_of_union, !elem_of_list_to_set, elem_of_singleton.
        split; [intros Hx; split; [auto|]; intros ->; apply (Nl _ Hx); left|]. intros [[Hx|[Hx|Hx]] Nx]; [exact Hx|contradiction|set_solver]. }
    destruct (IH pre (set_next t1 (length (pre ++ suf))) h fuel (acc ++ [l]) R1 ND) as (t' & E' & R' & I').
    + cbn [set_next t_next]. lia.
    + exists t'. split; [rewrite E', <- app_assoc, reverse_snoc; reflexivity|]. split; [exact R'|]. rewrite I'. exact Ids.
Qed.

Lemma push_all suf : forall pre t h, rowed t h pre -> found t pre -> NoDup (map l_id (pre ++ suf)) ->
  exists t' h', push_leaves t suf = Ok t' /\ h <= h' /\ rowed t' h' (pre ++ suf) /\ found t' (pre ++ suf) /\
    (forall id, is_Some (t_ids t' !! id) -> is_Some (t_ids t !! id) \/ id ∈ map l_id suf).
Proof.
  induction suf as [|l suf IH]; intros pre t h R Fo ND; cbn [push_leaves].
  - exists t, h. rewrite app_nil_r. auto 6.
  - destruct (push_rowed t h pre l R) as (t1 & h1 & E & Hh & R1 & Ids). rewrite E. cbn [rbind].
    rewrite (cons_middle l pre suf), app_assoc in ND |- *.
    destruct (IH (pre ++ [l]) t1 h1 R1) as (t' & h' & E' & Hh' & R' & F' & O').
    + intros i x Hx. rewrite Ids. apply lookup_app_Some in Hx as [Hx|[Hi Hx]].
      * rewrite lookup_insert_ne; [eauto|]. intros Z. rewrite map_app in ND. apply NoDup_app in ND as (ND & _ & _).
        rewrite map_app in ND. apply NoDup_app in ND as (_ & ND & _). apply (ND (l_id x)); [|rewrite <- Z; left].
        apply elem_of_list_fmap. exists x. split; [reflexivity|]. eapply elem_of_list_lookup_2; eauto.
      * apply list_lookup_singleton_Some in Hx as [Hz <-]. rewrite lookup_insert. f_equal. lia.
    + exact ND.
    + exists t', h'. split; [exact E'|]. split; [lia|]. split; [exact R'|]. split; [exact F'|].
      intros id Hid. apply O' in Hid as [Hid|Hid]; [|right; right; exact Hid]. rewrite Ids in Hid. destruct (decide (id = l_id l)) as [-> |N].
      * right. left.
      * left. rewrite lookup_insert_ne in Hid by auto. exact Hid.
Qed.

Lemma insert_leaf_perm l ls : insert_leaf_sorted l ls ≡ₚ l :: ls.
Proof.
  induction ls as [|x ls IH]; cbn [insert_leaf_sorted]; [reflexivity|]. destruct (_ <=? _); [reflexivity|]. rewrite IH. apply Permutation_swap.
Qed.
Lemma sort_leaves_list_perm ls : sort_leaves ls ≡ₚ ls.
Proof. induction ls as [|x ls IH]; cbn [sort_leaves]; [reflexivity|]. rewrite insert_leaf_perm, IH. reflexivity. Qed.

Lemma sort_rowed t h pre suf : rowed t h (pre ++ suf) -> found t (pre ++ suf) -> NoDup (map l_id (pre ++ suf)) ->
  exists t' h' suf', sort_leaves_and_blank_paths t (list_to_set (map l_id suf)) [] = Ok t' /\ h <= h' /\
    rowed t' h' (pre ++ suf') /\ found t' (pre ++ suf') /\ suf' ≡ₚ suf /\
    (forall id, is_Some (t_ids t' !! id) -> is_Some (t_ids t !! id) \/ id ∈ map l_id suf).
Proof.
  intros R F ND. unfold sort_leaves_and_blank_paths. cbn [blank_removed rbind].
  assert (NDs : NoDup (map l_id suf)) by (rewrite map_app in ND; apply NoDup_app in ND; tauto).
  destruct (pop_all suf pre t h (t_next t) [] R NDs (Nat.le_refl _)) as (t1 & E & R1 & Ids). rewrite E. cbn [rbind app].
  assert (P : sort_leaves (reverse suf) ≡ₚ suf) by (rewrite sort_leaves_list_perm; apply reverse_Permutation).
  destruct (push_all (sort_leaves (reverse suf)) pre t1 h R1) as (t' & h' & E' & Hh & R' & F' & O').
  - intros i l Hl. rewrite Ids. apply F. apply lookup_app_l_Some. exact Hl.
  - assert (Pm : map l_id (pre ++ sort_leaves (reverse suf)) ≡ₚ map l_id (pre ++ suf)) by (apply fmap_Permutation; rewrite P; reflexivity).
    rewrite Pm. exact ND.
  - exists t', h', (sort_leaves (reverse suf)). split; [exact E'|]. split; [exact Hh|]. split; [exact R'|]. split; [exact F'|].
    split; [exact P|]. intros id Hid. apply O' in Hid as [Hid|Hid]; [left; rewrite <- Ids; exact Hid|right].
    eapply elem_of_Permutation_proper; [|exact Hid]. apply fmap_Permutation. symmetry. exact P.
Qed.

(** ** Applying a path *)
(** The positions of the path lie in a tree of the path's own height. *)
Definition path_fits (pc : path_change) : Prop := forall i s, (i, s) ∈ pc_path pc -> i < 2 ^ length (pc_path pc) - 1.

Lemma apply_nodes_ok path removed : forall t, (forall i s, (i, s) ∈ path -> i < length (t_inner t)) ->
  exists t', apply_path_nodes t path removed = Ok t' /\ same_outer t t'.
Proof.
  induction path as [|[i s] path IH]; intros t B; cbn [apply_path_nodes].
  - exists t. split; [reflexivity|apply same_outer_refl].
  - destruct (t_inner t !! i) as [o|] eqn:Eo.
    2:{ apply lookup_ge_None_1 in Eo. pose proof (B i s ltac:(left)). lia. }
    cbn [expect rbind]. set (s' := match o with Some _ => _ | None => _ end).
    destruct (IH (set_inner t (<[i := Some s']> (t_inner t)))) as (t' & E & SO).
    + intros k x Hk. cbn. rewrite insert_length. eapply B. right. exact Hk.
    + exists t'. split; [exact E|]. eapply same_outer_trans; [apply same_outer_set_inner|exact SO].
Qed.

Lemma path_length_shape t h i : shape t h -> i < 2 ^ h -> path_length_for t i = Some h.
Proof.
  intros S Hi. unfold path_length_for. rewrite leaf_to_tree_node, (sh_size _ _ S), direct_path_node.
  - rewrite up_path_length, Nat.sub_0_r. reflexivity.
  - apply in_tree_node; [lia|]. rewrite Nat.sub_0_r. exact Hi.
Qed.

(** The row after a path was applied: the leaf of its owner, if there is one, holds
    merged keys. *)
Definition leaf_updated (pc : path_change) (l l' : leaf_node) : Prop :=
  l_id l' = l_id l /\ (l_id l <> pc_leaf_id pc -> l' = l) /\
  forall k, k ∈ nk_keys (l_pk l') -> k ∈ nk_keys (l_pk l) \/ (l_id l = pc_leaf_id pc /\ k ∈ nk_keys (pc_leaf_pk pc)).

Lemma leaf_updated_refl pc l : leaf_updated pc l l.
Proof. split; [reflexivity|]. split; auto. Qed.

Lemma apply_rowed t h ls pc : rowed t h ls -> found t ls -> only t (map l_id ls) -> pc_leaf_idx pc < 2 ^ h -> path_fits pc ->
  exists t' ls', apply_path t pc = Ok t' /\ rowed t' h ls' /\ t_ids t' = t_ids t /\ Forall2 (leaf_updated pc) ls ls'.
Proof.
  intros R Fo On Hi Fit. unfold apply_path. destruct (t_ids t !! pc_leaf_id pc) as [i|] eqn:Ei.
  2:{ exists t, ls. split; [reflexivity|]. split; [exact R|]. split; [reflexivity|]. apply Forall2_same_length_lookup_2; [reflexivity|].
      intros i x y Hx Hy. assert (x = y) as -> by congruence. apply leaf_updated_refl. }
  pose proof R as [S N F L]. rewrite (path_length_shape _ _ _ S Hi).
  assert (Q : exists l, ls !! i = Some l /\ l_id l = pc_leaf_id pc).
  { assert (Hid : pc_leaf_id pc ∈ map l_id ls) by (apply On; eauto). apply elem_of_list_fmap in Hid as (l & El & Hl).
    apply elem_of_list_lookup in Hl as (j & Hl). exists l. pose proof (Fo _ _ Hl) as Z. rewrite <- El, Ei in Z. injection Z as ->. auto. }
  destruct Q as (l & Hl & El). pose proof (lookup_lt_Some _ _ _ Hl) as Hlt.
  rewrite (leaf_at_shape _ _ _ S) by lia. rewrite L, Hl. cbn [rbind expect].
  destruct (nk_merge_spec (l_pk l) (pc_leaf_pk pc) (pc_removed pc)) as (nk & En & Pn & _). rewrite En. cbn [rbind].
  rewrite write_leaf_ok by (rewrite (sh_leaves _ _ S); lia). cbn [rbind].
  set (t1 := set_leaves t _). assert (S1 : shape t1 h) by apply shape_set_leaves, S.
  set (ls' := <[i := LeafNode (pc_leaf_id pc) nk]> ls).
  assert (G : forall t', same_outer t1 t' -> rowed t' h ls' /\ t_ids t' = t_ids t).
  { intros t' SO. split; [|rewrite (so_ids _ _ SO); reflexivity]. constructor.
    - eapply same_outer_shape; eauto.
    - rewrite (so_next _ _ SO). unfold ls'. rewrite insert_length. exact N.
    - unfold ls'. rewrite insert_length. exact F.
    - intros j. rewrite (same_outer_leafv _ _ _ SO). unfold t1. rewrite leafv_write by (rewrite (sh_leaves _ _ S); lia).
      unfold ls'. destruct (decide (j = i)) as [-> |Nj]; [rewrite list_lookup_insert by exact Hlt; reflexivity|].
      rewrite list_lookup_insert_ne by auto. apply L. }
  assert (U : Forall2 (leaf_updated pc) ls ls').
  { apply Forall2_same_length_lookup_2; [unfold ls'; rewrite insert_length; reflexivity|]. intros j x y Hx Hy. unfold ls' in Hy.
    destruct (decide (j = i)) as [-> |Nj].
    - rewrite list_lookup_insert in Hy by exact Hlt. injection Hy as <-. assert (x = l) as -> by congruence. split; [cbn; congruence|].
      split; [intros Z; congruence|]. cbn [l_pk]. intros k Hk. rewrite Pn, elem_of_app, elem_of_list_filter in Hk. destruct Hk as [Hk|[_ Hk]]; auto.
    - rewrite list_lookup_insert_ne in Hy by auto. assert (x = y) as -> by congruence. apply leaf_updated_refl. }
  destruct (_ && _) eqn:V.
  - apply andb_true_iff in V as [V _]. apply Nat.eqb_eq in V.
    destruct (apply_nodes_ok (pc_path pc) (pc_removed pc) t1) as (t' & E & SO).
    { intros k s Hk. rewrite (sh_inner _ _ S1), <- V. eapply Fit. exact Hk. }
    exists t', ls'. destruct (G _ SO). auto.
  - destruct (blank_leaf_path_spec t1 h i S1 ltac:(lia)) as (t' & E & SO & _). exists t', ls'. destruct (G _ SO). auto.
Qed.

(** ** Paths that are made fit *)
Lemma loop_fits fuel : forall t h k j cpk csk path removed sks rng t' k' path' removed' sks' rng', shape t h -> k <= h -> j < 2 ^ (h - k) ->
  encrypt_path_loop fuel t (node k j) cpk csk path removed sks rng = Ok (t', k', path', removed', sks', rng') ->
  exists l, path' = path ++ l /\ length l = h - k /\ forall i s, (i, s) ∈ l -> i < 2 ^ h - 1.
Proof.
  induction fuel as [|fuel IH]; intros t h k j cpk csk path removed sks rng t' k' path' removed' sks' rng' Sh Hk Hj; cbn [encrypt_path_loop];
    rewrite (is_root_node _ _ _ _ Sh); (destruct (bool_decide _) eqn:B; [apply bool_decide_eq_true in B as [-> ->]|apply bool_decide_eq_false in B]).
  1,3: intros Q; injection Q; intros; subst; exists []; rewrite app_nil_r, Nat.sub_diag; (split; [reflexivity|]); (split; [reflexivity|]); intros ? ? Z; inversion Z.
  - discriminate.
  - intros Q. apply rbind_ok in Q as (o & _ & Q). apply rbind_ok in Q as (ks & _ & Q). apply rbind_ok in Q as ([nsk rng1] & _ & Q).
    apply rbind_ok in Q as ([st rng2] & _ & Q). apply rbind_ok in Q as (t1 & Ew & Q).
    assert (Hk' : S k <= h). { destruct (decide (k = h)) as [-> |]; [|lia]. exfalso. apply B. rewrite Nat.sub_diag in Hj. cbn in Hj. split; [reflexivity|lia]. }
    assert (Hj' : j / 2 < 2 ^ (h - S k)). { rewrite <- anc_1. apply anc_lt. replace (1 + (h - S k)) with (h - k) by lia. exact Hj. }
    rewrite parent_node in Ew, Q. pose proof (inner_bound h k (j / 2) Hk' Hj') as Hb.
    rewrite write_inner_ok in Ew by (rewrite (sh_inner _ _ Sh); exact Hb). injection Ew as <-.
    destruct (IH _ h _ _ _ _ _ _ _ _ _ _ _ _ _ _ (same_outer_shape _ _ _ (same_outer_set_inner _ _ _) Sh) Hk' Hj' Q) as (l & -> & Ll & Bl).
    exists ((node k (j / 2), st) :: l). rewrite inner_from_node, <- app_assoc. split; [reflexivity|]. split; [cbn; lia|].
    intros i s Hi. apply elem_of_cons in Hi as [Hi|Hi]; [injection Hi as -> _; exact Hb|eauto].
Qed.

Lemma encrypt_fits t h ls id pk sks rng t' k pc sks' rng' : rowed t h ls -> found t ls -> only t (map l_id ls) ->
  encrypt_path t id pk sks rng = Ok (t', k, pc, sks', rng') -> pc_leaf_idx pc < length ls /\ path_fits pc.
Proof.
  intros R Fo On. unfold encrypt_path. intros Q. apply rbind_ok in Q as (i & Ei & Q). apply rbind_ok in Q as (old & _ & Q).
  apply rbind_ok in Q as (t1 & Ew & Q). apply rbind_ok in Q as (csk & _ & Q). apply rbind_ok in Q as ([[[[[t2 rsk] path] rm] sk2] rng2] & El & Q).
  injection Q as _ _ <- _ _. cbn [pc_leaf_idx]. unfold leaf_index_for_id in Ei. destruct (t_ids t !! id) as [i'|] eqn:E; [|discriminate]. injection Ei as ->.
  assert (Hi : i < length ls).
  { assert (Hid : id ∈ map l_id ls) by (apply On; eauto). apply elem_of_list_fmap in Hid as (l & -> & Hl). apply elem_of_list_lookup in Hl as (j & Hl).
    pose proof (Fo _ _ Hl) as Z. rewrite E in Z. injection Z as ->. eapply lookup_lt_Some; eauto. }
  split; [exact Hi|]. pose proof R as [S N F L]. rewrite write_leaf_ok in Ew by (rewrite (sh_leaves _ _ S); lia). injection Ew as <-.
  rewrite leaf_to_tree_node in El. assert (Hj : i < 2 ^ (h - 0)) by (rewrite Nat.sub_0_r; lia).
  destruct (loop_fits _ _ h _ _ _ _ _ _ _ _ _ _ _ _ _ _ (shape_set_leaves _ _ _ _ S) (Nat.le_0_l h) Hj El) as (l & -> & Ll & Bl).
  intros x s. cbn [pc_path app]. rewrite Ll, Nat.sub_0_r. apply Bl.
Qed.
