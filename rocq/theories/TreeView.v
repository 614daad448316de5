(** Coordinates of the tree operations: how each function of [TreeModel] changes what
    the tree holds at a (level, position). *)
From Coq Require Import Arith Lia.
From stdpp Require Import base list gmap.
From Verif Require Import ResModel KeysModel TreeModel TreeMathModel TreeMathSpec TreeMathProofs TreeSpec.

(** ** Ancestors *)
Definition anc (j d : nat) : nat := j / 2 ^ d.

Lemma anc_0 j : anc j 0 = j.
Proof. unfold anc. rewrite Nat.pow_0_r. apply Nat.div_1_r. Qed.
Lemma anc_S j d : anc j (S d) = anc (j / 2) d.
Proof.
  unfold anc. rewrite pow2_S, <- Nat.div_div by (pose proof (pow2_pos d); lia). reflexivity.
Qed.
Lemma anc_anc j a b : anc (anc j a) b = anc j (a + b).
Proof.
  unfold anc. rewrite Nat.div_div by (pose proof (pow2_pos a); pose proof (pow2_pos b); lia).
  rewrite <- Nat.pow_add_r. reflexivity.
Qed.
Lemma anc_1 j : anc j 1 = j / 2.
Proof. rewrite anc_S, anc_0. reflexivity. Qed.
Lemma anc_S' j d : anc j (S d) = anc j d / 2.
Proof. rewrite <- anc_1, anc_anc. f_equal. lia. Qed.
Lemma anc_lt j d n : j < 2 ^ (d + n) -> anc j d < 2 ^ n.
Proof.
  intros H. unfold anc. apply Nat.div_lt_upper_bound; [pose proof (pow2_pos d); lia|].
  rewrite <- Nat.pow_add_r. exact H.
Qed.
Lemma anc_small j d : j < 2 ^ d -> anc j d = 0.
Proof. intros. unfold anc. apply Nat.div_small. lia. Qed.

Lemma below_refl k j : below k j k j.
Proof. split; [lia|]. rewrite Nat.sub_diag. apply anc_0. Qed.
Lemma below_anc k j d : below k j (k + d) (anc j d).
Proof. split; [lia|]. replace (k + d - k) with d by lia. reflexivity. Qed.
Lemma below_trans k0 j0 k1 j1 k2 j2 : below k0 j0 k1 j1 -> below k1 j1 k2 j2 -> below k0 j0 k2 j2.
Proof.
  intros [A <-] [B <-]. split; [lia|].
  change (anc j0 (k2 - k0) = anc (anc j0 (k1 - k0)) (k2 - k1)). rewrite anc_anc. f_equal; lia.
Qed.
Lemma below_child_l k j : below k (2 * j) (S k) j.
Proof. split; [lia|]. replace (S k - k) with 1 by lia. rewrite Nat.pow_1_r. apply half_even. Qed.
Lemma below_child_r k j : below k (2 * j + 1) (S k) j.
Proof. split; [lia|]. replace (S k - k) with 1 by lia. rewrite Nat.pow_1_r. apply half_odd. Qed.
Lemma below_S_inv k0 j0 k j : below k0 j0 (S k) j ->
  (k0 = S k /\ j0 = j) \/ below k0 j0 k (2 * j) \/ below k0 j0 k (2 * j + 1).
Proof.
  intros [A B]. change (anc j0 (S k - k0) = j) in B.
  destruct (decide (k0 = S k)) as [->|].
  - left. rewrite Nat.sub_diag, anc_0 in B. auto.
  - right. replace (S k - k0) with (S (k - k0)) in B by lia. rewrite anc_S' in B.
    pose proof (Nat.div_mod (anc j0 (k - k0)) 2 ltac:(lia)) as E.
    pose proof (Nat.mod_upper_bound (anc j0 (k - k0)) 2 ltac:(lia)).
    destruct (anc j0 (k - k0) mod 2) as [|[|m]]; [left|right|lia];
      (split; [lia|]); change (anc j0 (k - k0) = (2 * j)%nat) || change (anc j0 (k - k0) = (2 * j + 1)%nat); lia.
Qed.

(** The other child of the same parent. *)
Definition sib (j : nat) : nat := if Nat.even j then S j else pred j.
Lemma sib_even j : sib (2 * j) = 2 * j + 1.
Proof. unfold sib. rewrite Nat.even_mul. cbn [Nat.even orb]. lia. Qed.
Lemma sib_odd j : sib (2 * j + 1) = 2 * j.
Proof.
  unfold sib. rewrite Nat.even_add, Nat.even_mul. cbn [Nat.even orb]. cbn. lia.
Qed.
Lemma even_odd_case j : (j = 2 * (j / 2) \/ j = 2 * (j / 2) + 1)%nat.
Proof.
  pose proof (Nat.div_mod j 2 ltac:(lia)). pose proof (Nat.mod_upper_bound j 2 ltac:(lia)). lia.
Qed.
Lemma sib_div2 j : sib j / 2 = j / 2.
Proof.
  destruct (even_odd_case j) as [E|E]; rewrite E at 1; rewrite ?sib_even, ?sib_odd, ?half_even, ?half_odd; reflexivity.
Qed.
Lemma sib_neq j : sib j <> j.
Proof.
  destruct (even_odd_case j) as [E|E].
  - rewrite E at 1. rewrite sib_even. lia.
  - rewrite E at 1. rewrite sib_odd. lia.
Qed.
Lemma sib_sib j : sib (sib j) = j.
Proof.
  destruct (even_odd_case j) as [E|E]; rewrite E at 1; rewrite ?sib_even, ?sib_odd, ?sib_even; lia.
Qed.
Lemma half_cases j m : j / 2 = m -> j = 2 * m \/ j = 2 * m + 1.
Proof. intros <-. apply even_odd_case. Qed.
Lemma same_half j m : j / 2 = m / 2 -> j = m \/ j = sib m.
Proof.
  intros E. destruct (half_cases j _ E) as [->| ->], (even_odd_case m) as [M|M];
    rewrite M at 2 4; rewrite ?sib_even, ?sib_odd; try (left; lia); try (right; lia).
Qed.
Lemma sibling_sib k j : sibling (node k j) = node k (sib j).
Proof.
  destruct (even_odd_case j) as [E|E]; rewrite E at 1 2.
  - rewrite sib_even. apply sibling_node_l.
  - rewrite sib_odd. apply sibling_node_r.
Qed.
Lemma sib_lt j n : 1 <= n -> j < 2 ^ n -> sib j < 2 ^ n.
Proof.
  intros Hn Hj. replace n with (S (n - 1)) in * by lia. rewrite pow2_S in *.
  destruct (even_odd_case j) as [E|E].
  - rewrite E, sib_even. lia.
  - rewrite E, sib_odd. lia.
Qed.

(** ** Array positions *)
Lemma leaf_to_tree_node i : leaf_to_tree i = node 0 i.
Proof. rewrite node_0. reflexivity. Qed.
Lemma is_leaf_node_0 j : is_leaf_idx (node 0 j) = true.
Proof. unfold is_leaf_idx. rewrite node_0, Nat.even_mul. reflexivity. Qed.
Lemma is_leaf_node_S k j : is_leaf_idx (node (S k) j) = false.
Proof.
  unfold is_leaf_idx. rewrite node_S, Nat.even_add, Nat.even_mul. reflexivity.
Qed.
Lemma leaf_from_node j : leaf_from_tree (node 0 j) = j.
Proof. unfold leaf_from_tree. rewrite node_0. apply half_even. Qed.
Lemma inner_from_node k j : inner_from_tree (node (S k) j) = node k j.
Proof. unfold inner_from_tree. rewrite node_S, Nat.add_sub. apply half_even. Qed.

(** ** Shape of a tree of height [h] *)
Record shape (t : tree) (h : nat) : Prop := Shape {
  sh_h : 1 <= h;
  sh_size : t_size t = complete_size h;
  sh_leaves : length (t_leaves t) = 2 ^ h;
  sh_inner : length (t_inner t) = 2 ^ h - 1
}.

Lemma inner_bound h k j : S k <= h -> j < 2 ^ (h - S k) -> node k j < 2 ^ h - 1.
Proof.
  intros Hk Hj. pose proof (in_tree_node (h - 1) k j ltac:(lia)) as A.
  replace (h - 1 - k) with (h - S k) in A by lia. specialize (A Hj).
  pose proof (complete_size_alt (h - 1)) as B. rewrite <- pow2_S in B.
  replace (S (h - 1)) with h in B by lia. lia.
Qed.

Lemma is_root_node t h k j : shape t h -> is_root t (node k j) = bool_decide (k = h /\ j = 0).
Proof.
  intros S. unfold is_root. rewrite (sh_size _ _ S), root_complete.
  destruct (Nat.eqb_spec (node k j) (node h 0)) as [E|E].
  - apply node_inj in E. symmetry. apply bool_decide_eq_true. exact E.
  - symmetry. apply bool_decide_eq_false. intros [-> ->]. auto.
Qed.
Lemma root_level_only h k j : k <= h -> j < 2 ^ (h - k) -> k = h -> j = 0.
Proof. intros A B ->. rewrite Nat.sub_diag, Nat.pow_0_r in B. lia. Qed.

Lemma leaf_at_view t i : i < length (t_leaves t) -> leaf_at t i = Ok (leafv t i).
Proof.
  intros H. unfold leaf_at, leafv. destruct (lookup_lt_is_Some_2 _ _ H) as [o E].
  rewrite E. reflexivity.
Qed.
Lemma inner_at_view t k j : node k j < length (t_inner t) -> inner_at t (node (S k) j) = Ok (innerv t k j).
Proof.
  intros H. unfold inner_at, innerv. rewrite inner_from_node.
  destruct (lookup_lt_is_Some_2 _ _ H) as [o E]. rewrite E. reflexivity.
Qed.
Lemma inner_at_shape t h k j : shape t h -> S k <= h -> j < 2 ^ (h - S k) ->
  inner_at t (node (S k) j) = Ok (innerv t k j).
Proof.
  intros S Hk Hj. apply inner_at_view. rewrite (sh_inner _ _ S). apply inner_bound; assumption.
Qed.
Lemma leaf_at_shape t h i : shape t h -> i < 2 ^ h -> leaf_at t i = Ok (leafv t i).
Proof. intros S Hi. apply leaf_at_view. rewrite (sh_leaves _ _ S). exact Hi. Qed.

Lemma write_leaf_ok t i l : i < length (t_leaves t) ->
  write_leaf t i l = Ok (set_leaves t (<[i := l]> (t_leaves t))).
Proof. intros H. unfold write_leaf. apply Nat.ltb_lt in H. rewrite H. reflexivity. Qed.
Lemma write_inner_ok t k j s : node k j < length (t_inner t) ->
  write_inner t (node (S k) j) s = Ok (set_inner t (<[node k j := s]> (t_inner t))).
Proof.
  intros H. unfold write_inner. rewrite inner_from_node. apply Nat.ltb_lt in H. rewrite H. reflexivity.
Qed.
Lemma leafv_write t i l i' : i < length (t_leaves t) ->
  leafv (set_leaves t (<[i := l]> (t_leaves t))) i' = if decide (i' = i) then l else leafv t i'.
Proof.
  intros H. unfold leafv. cbn [t_leaves set_leaves]. destruct (decide (i' = i)) as [->|N].
  - rewrite list_lookup_insert by exact H. reflexivity.
  - rewrite list_lookup_insert_ne by congruence. reflexivity.
Qed.
Lemma innerv_write t k j s k' j' : node k j < length (t_inner t) ->
  innerv (set_inner t (<[node k j := s]> (t_inner t))) k' j' =
  if decide (k' = k /\ j' = j) then s else innerv t k' j'.
Proof.
  intros H. unfold innerv. cbn [t_inner set_inner]. destruct (decide (k' = k /\ j' = j)) as [[-> ->]|N].
  - rewrite list_lookup_insert by exact H. reflexivity.
  - rewrite list_lookup_insert_ne; [reflexivity|]. intros E. apply node_inj in E as [-> ->]. auto.
Qed.

(** Two trees that agree except for their inner nodes. *)
Record same_outer (t t' : tree) : Prop := SameOuter {
  so_next : t_next t' = t_next t;
  so_leaves : t_leaves t' = t_leaves t;
  so_len : length (t_inner t') = length (t_inner t);
  so_size : t_size t' = t_size t;
  so_ids : t_ids t' = t_ids t
}.
Lemma same_outer_refl t : same_outer t t.
Proof. split; reflexivity. Qed.
Lemma same_outer_trans a b c : same_outer a b -> same_outer b c -> same_outer a c.
Proof. intros [] []. split; congruence. Qed.
Lemma same_outer_set_inner t i s : same_outer t (set_inner t (<[i := s]> (t_inner t))).
Proof. split; try reflexivity. apply insert_length. Qed.
Lemma same_outer_shape t t' h : same_outer t t' -> shape t h -> shape t' h.
Proof. intros [] []. split; congruence. Qed.
Lemma same_outer_leafv t t' i : same_outer t t' -> leafv t' i = leafv t i.
Proof. intros S. unfold leafv. rewrite (so_leaves _ _ S). reflexivity. Qed.

(** ** Blanking a path *)
Lemma blank_path_loop_spec fuel t h k j :
  shape t h -> S k <= h -> j < 2 ^ (h - S k) -> h - S k <= fuel ->
  exists t', blank_path_loop fuel t (node (S k) j) = Ok t' /\ same_outer t t' /\
    forall k0 j0, innerv t' k0 j0 =
      if decide (k <= k0 < h /\ j0 = anc j (k0 - k)) then None else innerv t k0 j0.
Proof.
  revert t k j; induction fuel as [|f IH]; intros t k j S Hk Hj Hf.
  - assert (h = Datatypes.S k) as -> by lia.
    assert (j = 0) as -> by (rewrite Nat.sub_diag, Nat.pow_0_r in Hj; lia).
    assert (B : node k 0 < length (t_inner t)) by (rewrite (sh_inner _ _ S); apply inner_bound; lia).
    cbn [blank_path_loop]. rewrite write_inner_ok by exact B. cbn [rbind].
    rewrite (is_root_node _ _ _ _ S), bool_decide_true by auto.
    eexists; split; [reflexivity|]. split; [apply same_outer_set_inner|].
    intros k0 j0. rewrite innerv_write by exact B.
    destruct (decide _) as [[-> ->]|N], (decide _) as [[Q1 Q2]|N'].
    + reflexivity.
    + exfalso; apply N'. split; [lia|]. rewrite Nat.sub_diag. symmetry; apply anc_0.
    + exfalso; apply N. assert (k0 = k) as -> by lia. rewrite Nat.sub_diag, anc_0 in Q2. auto.
    + reflexivity.
  - assert (B : node k j < length (t_inner t)) by (rewrite (sh_inner _ _ S); apply inner_bound; lia).
    cbn [blank_path_loop]. rewrite write_inner_ok by exact B. cbn [rbind].
    rewrite (is_root_node _ _ _ _ S).
    destruct (decide (h = Datatypes.S k)) as [->|Hne].
    + assert (j = 0) as -> by (rewrite Nat.sub_diag, Nat.pow_0_r in Hj; lia).
      rewrite bool_decide_true by auto.
      eexists; split; [reflexivity|]. split; [apply same_outer_set_inner|].
      intros k0 j0. rewrite innerv_write by exact B.
      destruct (decide _) as [[-> ->]|N], (decide _) as [[Q1 Q2]|N'].
      * reflexivity.
      * exfalso; apply N'. split; [lia|]. rewrite Nat.sub_diag. symmetry; apply anc_0.
      * exfalso; apply N. assert (k0 = k) as -> by lia. rewrite Nat.sub_diag, anc_0 in Q2. auto.
      * reflexivity.
    + rewrite bool_decide_false by lia.
      set (t1 := set_inner t _).
      assert (S1 : shape t1 h) by (eapply same_outer_shape; [apply same_outer_set_inner|exact S]).
      rewrite parent_node.
      destruct (IH t1 (Datatypes.S k) (j / 2)) as (t' & E & SO & V); try lia; try exact S1.
      { rewrite <- anc_1. apply anc_lt. replace (1 + (h - Datatypes.S (Datatypes.S k))) with (h - Datatypes.S k) by lia. exact Hj. }
      exists t'. split; [exact E|]. split; [eapply same_outer_trans; [apply same_outer_set_inner|exact SO]|].
      intros k0 j0. rewrite V. unfold t1. rewrite innerv_write by exact B.
      destruct (decide (Datatypes.S k <= k0 < h /\ j0 = anc (j / 2) (k0 - Datatypes.S k))) as [[Q1 Q2]|N1],
        (decide (k0 = k /\ j0 = j)) as [[E1 E2]|N2], (decide (k <= k0 < h /\ j0 = anc j (k0 - k))) as [[Q3 Q4]|N3];
        try reflexivity; exfalso.
      * apply N3. split; [lia|]. rewrite Q2, <- anc_S. f_equal; lia.
      * apply N3. split; [lia|]. rewrite Q2, <- anc_S. f_equal; lia.
      * apply N3. split; [lia|]. rewrite E1, E2, Nat.sub_diag. symmetry; apply anc_0.
      * destruct (decide (k0 = k)) as [E1|E1].
        -- apply N2. rewrite E1, Nat.sub_diag, anc_0 in Q4. auto.
        -- apply N1. split; [lia|]. rewrite Q4, <- anc_S. f_equal; lia.
Qed.

(** Blanking the path of leaf [i]: exactly the ancestors of the leaf become blank. *)
Lemma blank_leaf_path_spec t h i :
  shape t h -> i < 2 ^ h ->
  exists t', blank_path t (parent (leaf_to_tree i)) = Ok t' /\ same_outer t t' /\
    forall k0 j0, innerv t' k0 j0 =
      if decide (k0 < h /\ j0 = anc i (S k0)) then None else innerv t k0 j0.
Proof.
  intros S Hi. rewrite leaf_to_tree_node, parent_node. unfold blank_path.
  destruct (blank_path_loop_spec (t_size t) t h 0 (i / 2)) as (t' & E & SO & V).
  - exact S.
  - apply (sh_h _ _ S).
  - pose proof (sh_h _ _ S). rewrite <- anc_1. apply anc_lt.
    replace (1 + (h - 1)) with h by lia. exact Hi.
  - rewrite (sh_size _ _ S). pose proof (complete_size_alt h). pose proof (pow2_gt h). lia.
  - exists t'. split; [exact E|]. split; [exact SO|].
    intros k0 j0. rewrite V, Nat.sub_0_r, <- anc_S.
    destruct (decide _) as [A|A], (decide _) as [B|B]; try reflexivity; exfalso; naive_solver lia.
Qed.

(** ** Growing *)
Lemma resize_view {A} n (l : list (option A)) i : length l <= n ->
  mjoin (resize_vec n l !! i) = mjoin (l !! i).
Proof.
  intros H. unfold resize_vec. rewrite take_ge by lia.
  destruct (decide (i < length l)) as [L|L].
  - rewrite lookup_app_l by lia. reflexivity.
  - rewrite lookup_app_r by lia. rewrite (lookup_ge_None_2 l i) by lia.
    destruct (replicate (n - length l) None !! (i - length l)) as [o|] eqn:E; [|reflexivity].
    apply lookup_replicate in E as [-> _]. reflexivity.
Qed.
Lemma resize_length {A} n (l : list (option A)) : length l <= n -> length (resize_vec n l) = n.
Proof.
  intros H. unfold resize_vec. rewrite take_ge by lia. rewrite app_length, replicate_length. lia.
Qed.

Lemma grow_view t h : shape t h -> t_next t <= 2 ^ h ->
  exists h', h <= h' /\ shape (maybe_grow_tree t (t_next t)) h' /\ t_next t < 2 ^ h' /\
    t_next (maybe_grow_tree t (t_next t)) = t_next t /\
    t_ids (maybe_grow_tree t (t_next t)) = t_ids t /\
    (forall i, leafv (maybe_grow_tree t (t_next t)) i = leafv t i) /\
    (forall k j, innerv (maybe_grow_tree t (t_next t)) k j = innerv t k j).
Proof.
  intros S Hn. unfold maybe_grow_tree. rewrite (sh_size _ _ S).
  destruct (Nat.leb_spec (size_from_leaf_count (t_next t)) (complete_size h)) as [L|L].
  - exists h. split; [lia|]. split; [exact S|]. split.
    + destruct (t_next t) as [|n] eqn:E; [pose proof (pow2_pos h); lia|].
      rewrite size_from_leaf_count_complete in L by lia.
      assert (Q : Nat.log2 (Datatypes.S n) + 1 <= h).
      { destruct (Nat.le_gt_cases (Nat.log2 (Datatypes.S n) + 1) h) as [|G]; [assumption|exfalso].
        pose proof (complete_size_alt h). pose proof (complete_size_alt (Nat.log2 (Datatypes.S n) + 1)).
        pose proof (pow2_lt_mono _ _ G). lia. }
      pose proof (Nat.log2_spec (Datatypes.S n) ltac:(lia)) as [_ B].
      pose proof (pow2_mono _ _ Q) as C. rewrite Nat.add_1_r in C. lia.
    + repeat split; reflexivity.
  - assert (Hn1 : 1 <= t_next t).
    { destruct (t_next t); [|lia]. exfalso. unfold size_from_leaf_count in L. cbn in L.
      pose proof (complete_size_alt h). pose proof (pow2_pos h).
      change (size_new 0) with 1 in L. lia. }
    assert (E : t_next t = 2 ^ h).
    { rewrite size_from_leaf_count_complete in L by exact Hn1.
      assert (Q : h < Nat.log2 (t_next t) + 1).
      { destruct (Nat.lt_ge_cases h (Nat.log2 (t_next t) + 1)) as [|G]; [assumption|exfalso].
        pose proof (complete_size_alt h). pose proof (complete_size_alt (Nat.log2 (t_next t) + 1)).
        pose proof (pow2_mono _ _ G). lia. }
      pose proof (Nat.log2_spec (t_next t) ltac:(lia)) as [A _].
      pose proof (pow2_mono h (Nat.log2 (t_next t)) ltac:(lia)). lia. }
    exists (Datatypes.S h). split; [lia|]. rewrite pow2_S.
    unfold grow_tree_to_size. cbn [t_size t_leaves t_inner t_next t_ids].
    rewrite size_inc_complete, leaf_count_complete, inner_count_complete.
    pose proof (sh_leaves _ _ S) as SL. pose proof (sh_inner _ _ S) as SI.
    pose proof (pow2_pos h). pose proof (pow2_S h).
    split; [|split; [lia|split; [reflexivity|split; [reflexivity|split]]]].
    + split; cbn [t_size t_leaves t_inner].
      * lia.
      * reflexivity.
      * apply resize_length. lia.
      * apply resize_length. lia.
    + intros i. unfold leafv; cbn [t_leaves]. apply resize_view. lia.
    + intros k j. unfold innerv; cbn [t_inner]. apply resize_view. lia.
Qed.

(** ** Adding a leaf *)
Record added (t t' : tree) (id : member_id) (nk : node_key) (i h' : nat) : Prop := Added {
  ad_shape : shape t' h';
  ad_idx : i = t_next t;
  ad_lt : i < 2 ^ h';
  ad_next : t_next t' = i + 1;
  ad_ids : t_ids t' = <[id := i]> (t_ids t);
  ad_leaf : forall i', leafv t' i' = if decide (i' = i) then Some (LeafNode id nk) else leafv t i';
  ad_inner : forall k0 j0, innerv t' k0 j0 =
      if decide (k0 < h' /\ j0 = anc i (S k0)) then None else innerv t k0 j0
}.

Lemma push_leaf_spec t h id nk : shape t h -> t_next t <= 2 ^ h ->
  exists t' i h', push_leaf t id nk = Ok (t', i) /\ h <= h' /\ added t t' id nk i h'.
Proof.
  intros S Hn. destruct (grow_view t h S Hn) as (h' & Hh & S' & Hlt & En & Ei & Vl & Vi).
  unfold push_leaf. set (g := maybe_grow_tree t (t_next t)) in *. cbv zeta.
  rewrite En. rewrite write_leaf_ok by (cbn [set_next t_leaves]; rewrite (sh_leaves _ _ S'); exact Hlt).
  cbn [rbind].
  match goal with |- context [blank_path ?x _] => set (t2 := x) end.
  assert (S2 : shape t2 h').
  { unfold t2. split; cbn [set_ids set_leaves set_next t_size t_leaves t_inner].
    - apply (sh_h _ _ S').
    - apply (sh_size _ _ S').
    - rewrite insert_length. apply (sh_leaves _ _ S').
    - apply (sh_inner _ _ S'). }
  destruct (blank_leaf_path_spec t2 h' (t_next t) S2 Hlt) as (t' & E & SO & V).
  rewrite E. cbn [rbind]. exists t', (t_next t), h'. split; [reflexivity|]. split; [exact Hh|].
  split.
  - eapply same_outer_shape; eassumption.
  - reflexivity.
  - exact Hlt.
  - rewrite (so_next _ _ SO). reflexivity.
  - rewrite (so_ids _ _ SO). unfold t2. cbn [set_ids set_leaves set_next t_ids]. rewrite Ei. reflexivity.
  - intros i'. rewrite (same_outer_leafv _ _ _ SO).
    transitivity (leafv (set_leaves (set_next g (t_next t + 1)) (<[t_next t := Some (LeafNode id nk)]> (t_leaves (set_next g (t_next t + 1))))) i').
    { reflexivity. }
    rewrite leafv_write by (cbn [set_next t_leaves]; rewrite (sh_leaves _ _ S'); exact Hlt).
    destruct (decide (i' = t_next t)); [reflexivity|]. apply Vl.
  - intros k0 j0. rewrite V. destruct (decide _); [reflexivity|]. apply Vi.
Qed.

(** ** A new tree *)
Lemma tree_new_spec id pk : exists t, tree_new id pk = Ok t /\ shape t 1 /\
  t_next t = 1 /\ t_ids t = {[ id := 0 ]} /\
  (forall i, leafv t i = if decide (i = 0) then Some (LeafNode id (SKey pk)) else None) /\
  (forall k j, innerv t k j = None).
Proof.
  unfold tree_new. set (g := grow_tree_to_size _).
  assert (Eg : g = Tree 0 [None; None] [None] 3 ∅) by reflexivity.
  clearbody g. subst g.
  assert (S : shape (Tree 0 [None; None] [None] 3 ∅) 1) by (split; reflexivity || lia).
  destruct (push_leaf_spec _ 1 id (SKey pk) S) as (t' & i & h' & E & Hh & A).
  { cbn; lia. }
  cbv zeta in E. rewrite E. cbn [rbind]. exists t'. split; [reflexivity|].
  destruct A as [S' Hi Hlt Hn Hids Hl Hin]. cbn [t_next t_ids] in *. subst i.
  assert (h' = 1) as ->.
  { cbv in E. injection E as <-. pose proof (sh_leaves _ _ S') as L. cbn in L.
    pose proof (sh_h _ _ S'). destruct (decide (h' = 1)); [assumption|].
    pose proof (pow2_mono 2 h' ltac:(lia)). cbn in *. lia. }
  split; [exact S'|]. split; [exact Hn|]. split; [exact Hids|]. split.
  - intros i. rewrite Hl. destruct (decide (i = 0)); [reflexivity|]. destruct i as [|[|[|i]]]; reflexivity || lia.
  - intros k j. rewrite Hin. destruct (decide _); [reflexivity|].
    unfold innerv. cbn [t_inner]. destruct (node k j) as [|[|m]]; reflexivity.
Qed.
