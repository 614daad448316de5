From Coq Require Import Arith List Bool Lia.
From Verif Require Import TreeMathModel TreeMathSpec.
Import ListNotations.

Lemma pow2_pos k : 1 <= 2 ^ k.
Proof. induction k; simpl; lia. Qed.
Lemma pow2_S k : 2 ^ S k = 2 * 2 ^ k.
Proof. simpl; lia. Qed.
Lemma pow2_gt k : k < 2 ^ k.
Proof. induction k; simpl; lia. Qed.
Lemma pow2_add1 k : 2 ^ (k + 1) = 2 * 2 ^ k.
Proof. rewrite Nat.add_1_r; apply pow2_S. Qed.
Lemma pow2_mono a b : a <= b -> 2 ^ a <= 2 ^ b.
Proof. intros; apply Nat.pow_le_mono_r; lia. Qed.
Lemma pow2_lt_mono a b : a < b -> 2 ^ a < 2 ^ b.
Proof. intros; apply Nat.pow_lt_mono_r; lia. Qed.

(** ** The closed form of a node index *)
Lemma node_0 j : node 0 j = 2 * j.
Proof. unfold node; simpl; lia. Qed.
Lemma node_S k j : node (S k) j = 2 * node k j + 1.
Proof. unfold node; rewrite pow2_S. pose proof (pow2_pos k). nia. Qed.
Lemma node_alt k j : node k j = 2 ^ (k + 1) * j + (2 ^ k - 1).
Proof. unfold node; rewrite pow2_add1; pose proof (pow2_pos k); nia. Qed.
Lemma node_plus k j : node k j + 1 = 2 ^ k * (2 * j + 1).
Proof. unfold node; pose proof (pow2_pos k); nia. Qed.

Lemma testbit_node_low k j i : i < k -> Nat.testbit (node k j) i = true.
Proof.
  revert i; induction k as [|k IH]; intros i Hi; [lia|].
  rewrite node_S. destruct i as [|i].
  - apply Nat.testbit_odd_0.
  - rewrite Nat.testbit_odd_succ by lia. apply IH; lia.
Qed.
Lemma testbit_node_mid k j : Nat.testbit (node k j) k = false.
Proof.
  induction k as [|k IH].
  - rewrite node_0. apply Nat.testbit_even_0.
  - rewrite node_S, Nat.testbit_odd_succ by lia. exact IH.
Qed.
Lemma testbit_node_high k j i : Nat.testbit (node k j) (k + 1 + i) = Nat.testbit j i.
Proof.
  induction k as [|k IH].
  - rewrite node_0. cbn [Nat.add]. rewrite Nat.testbit_even_succ by lia. reflexivity.
  - rewrite node_S. replace (S k + 1 + i) with (S (k + 1 + i)) by lia.
    rewrite Nat.testbit_odd_succ by lia. exact IH.
Qed.
Lemma testbit_node_high' k j i : k < i -> Nat.testbit (node k j) i = Nat.testbit j (i - k - 1).
Proof.
  intros H. replace i with (k + 1 + (i - k - 1)) at 1 by lia. apply testbit_node_high.
Qed.

(** Every number is a node of some level. *)
Lemma node_exists x : exists k j, x = node k j.
Proof.
  induction x as [x IH] using lt_wf_ind.
  destruct (Nat.Even_or_Odd x) as [[m Hm]|[m Hm]].
  - exists 0, m. rewrite node_0; exact Hm.
  - destruct (IH m) as (k & j & E); [lia|].
    exists (S k), j. rewrite node_S, <- E. exact Hm.
Qed.
Lemma node_inj k j k' j' : node k j = node k' j' -> k = k' /\ j = j'.
Proof.
  revert k'; induction k as [|k IH]; intros [|k'] E; rewrite ?node_0, ?node_S in E; try lia.
  destruct (IH k') as [-> ->]; lia.
Qed.

(** ** Loops *)
Lemma count_while_run fuel p k n :
  (forall i, k <= i < n -> p i = true) -> p n = false -> k <= n -> n < k + fuel ->
  count_while fuel p k = Some n.
Proof.
  revert k; induction fuel as [|f IH]; intros k Ht Hf Hk Hlt; [lia|].
  cbn [count_while]. destruct (Nat.eq_dec k n) as [->|Hne].
  - rewrite Hf; reflexivity.
  - rewrite Ht by lia. apply IH; try lia; auto. intros i Hi; apply Ht; lia.
Qed.

Lemma land_1 x : Nat.land x 1 = (if Nat.testbit x 0 then 1 else 0).
Proof.
  change 1 with (Nat.ones 1) at 1. rewrite Nat.land_ones, Nat.pow_1_r.
  rewrite <- Nat.bit0_mod. destruct (Nat.testbit x 0); reflexivity.
Qed.
Lemma land_shiftr_1 x k : Nat.land (Nat.shiftr x k) 1 = (if Nat.testbit x k then 1 else 0).
Proof. rewrite land_1, Nat.shiftr_spec by lia. reflexivity. Qed.

Lemma level_node k j : level (node k j) = k.
Proof.
  unfold level. rewrite land_1.
  destruct k as [|k].
  - rewrite testbit_node_mid. reflexivity.
  - rewrite testbit_node_low by lia. cbn [Nat.eqb].
    rewrite (count_while_run _ _ 0 (S k)).
    + reflexivity.
    + intros i Hi. rewrite land_shiftr_1, testbit_node_low by lia. reflexivity.
    + rewrite land_shiftr_1, testbit_node_mid. reflexivity.
    + lia.
    + rewrite node_alt. pose proof (pow2_gt (S k)). lia.
Qed.

Lemma log2_spec x : log2 x = Nat.log2 x.
Proof.
  unfold log2. destruct (Nat.eqb_spec x 0) as [->|Hx]; [reflexivity|].
  rewrite (count_while_run _ _ 0 (S (Nat.log2 x))).
  - lia.
  - intros i Hi. apply Nat.ltb_lt.
    rewrite Nat.shiftr_div_pow2. apply Nat.div_str_pos.
    split; [pose proof (pow2_pos i); lia|].
    apply Nat.log2_le_pow2; lia.
  - apply Nat.ltb_ge. rewrite Nat.shiftr_div_pow2.
    rewrite Nat.div_small; [lia|]. apply Nat.log2_lt_pow2; lia.
  - lia.
  - pose proof (Nat.log2_lt_lin x). lia.
Qed.

(** ** Children and parent *)
Lemma shiftl_1 k : Nat.shiftl 1 k = 2 ^ k.
Proof. rewrite Nat.shiftl_mul_pow2; lia. Qed.
Lemma testbit_pow2 k i : Nat.testbit (2 ^ k) i = (k =? i).
Proof. apply Nat.pow2_bits_eqb. Qed.

Ltac bits := apply Nat.bits_inj; intro i.

(** bits of a node, in one equation *)
Lemma testbit_node k j i :
  Nat.testbit (node k j) i =
  (if i <? k then true else if i =? k then false else Nat.testbit j (i - k - 1)).
Proof.
  destruct (Nat.ltb_spec i k); [apply testbit_node_low; lia|].
  destruct (Nat.eqb_spec i k) as [->|]; [apply testbit_node_mid|].
  apply testbit_node_high'; lia.
Qed.

Lemma testbit_2j j i : Nat.testbit (2 * j) i = if i =? 0 then false else Nat.testbit j (i - 1).
Proof.
  destruct i; cbn [Nat.eqb].
  - apply Nat.testbit_even_0.
  - rewrite Nat.testbit_even_succ by lia. f_equal; lia.
Qed.
Lemma testbit_2j1 j i : Nat.testbit (2 * j + 1) i = if i =? 0 then true else Nat.testbit j (i - 1).
Proof.
  destruct i; cbn [Nat.eqb].
  - apply Nat.testbit_odd_0.
  - rewrite Nat.testbit_odd_succ by lia. f_equal; lia.
Qed.

Lemma left_node k j : left (node (S k) j) = node k (2 * j).
Proof.
  unfold left. rewrite level_node, shiftl_1. replace (S k - 1) with k by lia.
  bits. rewrite Nat.lxor_spec, testbit_pow2, !testbit_node, testbit_2j.
  destruct (Nat.ltb_spec i (S k)), (Nat.eqb_spec k i), (Nat.ltb_spec i k), (Nat.eqb_spec i k),
    (Nat.eqb_spec i (S k)), (Nat.eqb_spec (i - k - 1) 0); try lia; cbn; try reflexivity.
  rewrite xorb_false_r. f_equal; lia.
Qed.

Lemma shiftl_3_bits k i : Nat.testbit (Nat.shiftl 3 k) i = ((i =? k) || (i =? S k))%bool.
Proof.
  rewrite Nat.shiftl_mul_pow2. replace (3 * 2 ^ k) with (2 ^ (k+1) * 1 + 2 ^ k) by (rewrite pow2_add1; lia).
  destruct (Nat.lt_ge_cases i k) as [H|H].
  - rewrite Nat.mul_1_r, pow2_add1.
    replace (2 * 2 ^ k + 2 ^ k) with (3 * 2 ^ k) by lia.
    rewrite Nat.mul_pow2_bits_low by lia.
    destruct (Nat.eqb_spec i k), (Nat.eqb_spec i (S k)); try lia; reflexivity.
  - rewrite Nat.mul_1_r, pow2_add1.
    replace (2 * 2 ^ k + 2 ^ k) with (3 * 2 ^ k) by lia.
    replace i with (i - k + k) at 1 by lia. rewrite Nat.mul_pow2_bits_add.
    destruct (i - k) as [|[|[|m]]] eqn:E;
      destruct (Nat.eqb_spec i k), (Nat.eqb_spec i (S k)); try lia; try reflexivity.
    destruct m; [reflexivity|]. apply Nat.bits_0.
Qed.

Lemma right_node k j : right (node (S k) j) = node k (2 * j + 1).
Proof.
  unfold right. rewrite level_node. replace (S k - 1) with k by lia.
  bits. rewrite Nat.lxor_spec, shiftl_3_bits, !testbit_node, testbit_2j1.
  destruct (Nat.ltb_spec i (S k)), (Nat.eqb_spec i (S k)), (Nat.ltb_spec i k), (Nat.eqb_spec i k),
    (Nat.eqb_spec (i - k - 1) 0); try lia; cbn; try reflexivity.
  rewrite xorb_false_r. f_equal; lia.
Qed.

Lemma bit_mul_pow2 (b : bool) k i : Nat.testbit (Nat.shiftl (if b then 1 else 0) k) i = (b && (i =? k))%bool.
Proof.
  destruct b.
  - rewrite shiftl_1, testbit_pow2, Nat.eqb_sym. reflexivity.
  - rewrite Nat.shiftl_0_l, Nat.bits_0. reflexivity.
Qed.

Lemma testbit_div2 j i : Nat.testbit (j / 2) i = Nat.testbit j (S i).
Proof. apply Nat.div2_bits. Qed.

Lemma parent_node k j : parent (node k j) = node (S k) (j / 2).
Proof.
  unfold parent. rewrite level_node. cbv zeta. rewrite land_shiftr_1, shiftl_1.
  replace (Nat.testbit (node k j) (k + 1)) with (Nat.testbit j 0)
    by (rewrite <- (testbit_node_high k j 0); f_equal; lia).
  bits. rewrite Nat.lxor_spec, Nat.lor_spec, bit_mul_pow2, testbit_pow2, !testbit_node, testbit_div2.
  destruct (Nat.ltb_spec i k), (Nat.eqb_spec i k), (Nat.eqb_spec k i), (Nat.eqb_spec i (k + 1)),
    (Nat.ltb_spec i (S k)), (Nat.eqb_spec i (S k)); try lia; cbn;
    rewrite ?andb_false_r, ?andb_true_r, ?orb_false_r, ?xorb_false_r; try reflexivity.
  - replace (i - k - 1) with 0 by lia. apply xorb_nilpotent.
  - change (Nat.testbit (Nat.div2 j) (i - S k - 1)) with (Nat.testbit j (S (i - S k - 1))). f_equal; lia.
Qed.

Lemma node_lt_child_l k j : node k (2 * j) < node (S k) j.
Proof.
  rewrite !node_alt, !pow2_add1, ?pow2_S. pose proof (pow2_pos k). nia.
Qed.
Lemma node_gt_child_r k j : node (S k) j < node k (2 * j + 1).
Proof.
  rewrite !node_alt, !pow2_add1, ?pow2_S. pose proof (pow2_pos k). nia.
Qed.

Lemma half_even j : (2 * j) / 2 = j.
Proof. rewrite Nat.mul_comm. apply Nat.div_mul. lia. Qed.
Lemma half_odd j : (2 * j + 1) / 2 = j.
Proof. symmetry. apply Nat.div_unique with 1; lia. Qed.

Lemma sibling_node_l k j : sibling (node k (2 * j)) = node k (2 * j + 1).
Proof.
  unfold sibling. rewrite parent_node, half_even. cbv zeta.
  pose proof (node_lt_child_l k j) as H. apply Nat.compare_lt_iff in H. rewrite H.
  apply right_node.
Qed.
Lemma sibling_node_r k j : sibling (node k (2 * j + 1)) = node k (2 * j).
Proof.
  unfold sibling. rewrite parent_node, half_odd. cbv zeta.
  pose proof (node_gt_child_r k j) as H. apply Nat.compare_gt_iff in H. rewrite H.
  apply left_node.
Qed.

Lemma odd_node x : Nat.odd x = true -> exists k j, x = node (S k) j.
Proof.
  intros H. destruct (node_exists x) as ([|k] & j & ->).
  - rewrite node_0, Nat.odd_mul in H. cbn in H. discriminate.
  - eauto.
Qed.

(** ** C01 *)
Lemma navigation_laws x : Nat.odd x = true ->
  left x < x < right x /\ parent (left x) = x /\ parent (right x) = x /\
  sibling (left x) = right x /\ sibling (right x) = left x /\
  level x = S (level (left x)) /\ level x = S (level (right x)).
Proof.
  intros H. destruct (odd_node x H) as (k & j & ->).
  rewrite left_node, right_node, !parent_node, half_even, half_odd, sibling_node_l,
    sibling_node_r, !level_node.
  pose proof (node_lt_child_l k j). pose proof (node_gt_child_r k j). lia.
Qed.

Lemma subtree_split k j y :
  in_subtree y (S k) j <->
  in_subtree y k (2 * j) \/ y = node (S k) j \/ in_subtree y k (2 * j + 1).
Proof.
  unfold in_subtree. rewrite node_alt, !pow2_add1, !pow2_S. pose proof (pow2_pos k).
  split.
  - intros [A B].
    destruct (Nat.lt_trichotomy (y + 1) (4 * 2 ^ k * j + 2 * 2 ^ k)) as [C|[C|C]].
    + left. nia.
    + right; left. nia.
    + right; right. nia.
  - intros [[A B]|[->|[A B]]]; nia.
Qed.

Lemma subtree_self k j : in_subtree (node k j) k j.
Proof. unfold in_subtree. rewrite node_alt, !pow2_add1. pose proof (pow2_pos k). nia. Qed.

Lemma subtree_parent k j y : in_subtree y k j -> in_subtree y (S k) (j / 2).
Proof.
  intros H. apply subtree_split.
  pose proof (Nat.div_mod j 2 ltac:(lia)) as E.
  pose proof (Nat.mod_upper_bound j 2 ltac:(lia)).
  destruct (j mod 2) as [|[|m]] eqn:M; [left|right; right|lia].
  - replace (2 * (j / 2)) with j by lia. exact H.
  - replace (2 * (j / 2) + 1) with j by lia. exact H.
Qed.

(** The level-[k] node over [y] is unique. *)
Lemma subtree_unique k j j' y : in_subtree y k j -> in_subtree y k j' -> j = j'.
Proof.
  unfold in_subtree. intros [A B] [C D]. pose proof (pow2_pos (k + 1)). nia.
Qed.

(** Position of the ancestor: [d] levels up *)
Lemma in_subtree_anc k j d : in_subtree (node k j) (k + d) (j / 2 ^ d).
Proof.
  induction d as [|d IH].
  - rewrite Nat.pow_0_r, Nat.div_1_r, Nat.add_0_r. apply subtree_self.
  - rewrite pow2_S, (Nat.mul_comm 2), <- Nat.div_div by (pose proof (pow2_pos d); lia).
    replace (k + S d) with (S (k + d)) by lia. apply subtree_parent, IH.
Qed.

Lemma in_subtree_level k j k' j' : in_subtree (node k j) k' j' -> k <= k'.
Proof.
  unfold in_subtree. intros [A B]. destruct (Nat.le_gt_cases k k') as [|Hlt]; [assumption|exfalso].
  assert (E : exists c, 2 ^ k = 2 ^ (k' + 1) * c).
  { exists (2 ^ (k - (k' + 1))). rewrite <- Nat.pow_add_r. f_equal. lia. }
  destruct E as [c E].
  assert (Hn : node k j + 1 = 2 ^ (k' + 1) * (c * (2 * j + 1))) by (rewrite node_plus, E; lia).
  pose proof (pow2_pos (k' + 1)).
  set (P := 2 ^ (k' + 1)) in *. set (m := c * (2 * j + 1)) in *.
  assert (Hm : 0 < m).
  { unfold m. destruct c; [|lia]. rewrite Nat.mul_0_r in E. pose proof (pow2_pos k). lia. }
  assert (m < j' + 1) by nia. assert (j' < m) by nia. lia.
Qed.

(** ** Direct paths *)
Fixpoint up_path (k j d : nat) : list nat :=
  match d with
  | 0 => []
  | S d' => node (S k) (j / 2) :: up_path (S k) (j / 2) d'
  end.

Lemma direct_path_loop_up fuel k j d :
  d <= fuel ->
  direct_path_loop fuel (node k j) (node (k + d) (j / 2 ^ d)) = Some (up_path k j d).
Proof.
  revert k j d; induction fuel as [|f IH]; intros k j d Hd.
  - assert (d = 0) as -> by lia. cbn [direct_path_loop].
    rewrite Nat.pow_0_r, Nat.div_1_r, Nat.add_0_r, Nat.eqb_refl. reflexivity.
  - cbn [direct_path_loop]. destruct d as [|d].
    + rewrite Nat.pow_0_r, Nat.div_1_r, Nat.add_0_r, Nat.eqb_refl. reflexivity.
    + destruct (Nat.eqb_spec (node k j) (node (k + S d) (j / 2 ^ S d))) as [E|_].
      { apply node_inj in E. lia. }
      rewrite parent_node. cbn [up_path].
      replace (k + S d) with (S k + d) by lia.
      rewrite pow2_S, <- Nat.div_div by (pose proof (pow2_pos d); lia).
      rewrite IH by lia. reflexivity.
Qed.

Lemma root_complete h : root (complete_size h) = node h 0.
Proof.
  unfold root, complete_size. rewrite log2_spec, shiftl_1.
  assert (E : Nat.log2 (2 ^ (h + 1) - 1) = h).
  { apply Nat.log2_unique; [lia|]. rewrite Nat.add_1_r, pow2_S.
    pose proof (pow2_pos h). lia. }
  rewrite E. unfold node. lia.
Qed.

Lemma complete_size_alt h : complete_size h + 1 = 2 * 2 ^ h.
Proof. unfold complete_size. rewrite pow2_add1. pose proof (pow2_pos h). lia. Qed.

Lemma in_tree_level h k j : node k j < complete_size h -> k <= h /\ j < 2 ^ (h - k).
Proof.
  intros H. pose proof (complete_size_alt h) as C. pose proof (node_plus k j) as E.
  assert (L : 2 ^ k * (2 * j + 1) < 2 ^ (S h)) by (rewrite pow2_S; lia).
  assert (k <= h).
  { destruct (Nat.le_gt_cases k h); [assumption|exfalso].
    pose proof (pow2_mono (S h) k ltac:(lia)). nia. }
  split; [assumption|].
  replace (S h) with (k + S (h - k)) in L by lia.
  rewrite Nat.pow_add_r, pow2_S in L.
  pose proof (pow2_pos k). nia.
Qed.

Lemma in_tree_node h k j : k <= h -> j < 2 ^ (h - k) -> node k j < complete_size h.
Proof.
  intros Hk Hj. pose proof (complete_size_alt h) as C. pose proof (node_plus k j) as E.
  replace h with (k + (h - k)) in C at 2 by lia. rewrite Nat.pow_add_r in C.
  pose proof (pow2_pos k). nia.
Qed.

Lemma direct_path_node h k j :
  node k j < complete_size h ->
  direct_path (node k j) (complete_size h) = Some (up_path k j (h - k)).
Proof.
  intros H. destruct (in_tree_level h k j H) as [Hk Hj].
  unfold direct_path. rewrite root_complete.
  pose proof (direct_path_loop_up (complete_size h) k j (h - k)) as E.
  replace (k + (h - k)) with h in E by lia.
  rewrite Nat.div_small in E by exact Hj. apply E.
  pose proof (complete_size_alt h). pose proof (pow2_gt h). lia.
Qed.

Lemma up_path_length k j d : length (up_path k j d) = d.
Proof. revert k j; induction d; intros; cbn; auto. Qed.

Lemma up_path_nth k j d i :
  i < d -> nth_error (up_path k j d) i = Some (node (k + S i) (j / 2 ^ S i)).
Proof.
  revert k j i; induction d as [|d IH]; intros k j i Hi; [lia|].
  destruct i as [|i]; cbn [up_path nth_error].
  - rewrite Nat.pow_1_r. do 2 f_equal; lia.
  - rewrite IH by lia. rewrite Nat.div_div by (pose proof (pow2_pos (S i)); lia).
    rewrite <- pow2_S. do 2 f_equal; lia.
Qed.

Lemma up_path_in k j d a :
  In a (up_path k j d) <-> exists i, i < d /\ a = node (k + S i) (j / 2 ^ S i).
Proof.
  split.
  - intros H. apply In_nth_error in H as [i Hi].
    assert (i < d) by (rewrite <- (up_path_length k j d); apply nth_error_Some; congruence).
    rewrite up_path_nth in Hi by assumption. exists i; split; congruence.
  - intros (i & Hi & ->). eapply nth_error_In. apply up_path_nth, Hi.
Qed.

Lemma covers_node a k j :
  covers a (node k j) <-> exists d, a = node (k + d) (j / 2 ^ d).
Proof.
  split.
  - intros (k' & j' & -> & H). pose proof (in_subtree_level _ _ _ _ H).
    exists (k' - k). f_equal; [lia|].
    pose proof (in_subtree_anc k j (k' - k)) as A. replace (k + (k' - k)) with k' in A by lia.
    exact (subtree_unique _ _ _ _ H A).
  - intros (d & ->). exists (k + d), (j / 2 ^ d). split; [reflexivity|apply in_subtree_anc].
Qed.

Lemma anc_in_tree_iff h k j d :
  node k j < complete_size h ->
  (node (k + d) (j / 2 ^ d) < complete_size h <-> k + d <= h).
Proof.
  intros H. destruct (in_tree_level h k j H) as [Hk Hj]. split; intros A.
  - apply in_tree_level in A. lia.
  - apply in_tree_node; [exact A|].
    apply Nat.div_lt_upper_bound; [pose proof (pow2_pos d); lia|].
    rewrite <- Nat.pow_add_r. replace (d + (h - (k + d))) with (h - k) by lia. exact Hj.
Qed.

(** ** C02 *)
Lemma direct_path_correct h x :
  x < complete_size h ->
  exists p, direct_path x (complete_size h) = Some p /\
    length p = h - level x /\
    (forall a, In a p <-> covers a x /\ a <> x /\ a < complete_size h) /\
    (forall i a, nth_error p i = Some a -> level a = level x + i + 1) /\
    last (x :: p) 0 = root (complete_size h).
Proof.
  destruct (node_exists x) as (k & j & ->). intros H.
  exists (up_path k j (h - k)). rewrite direct_path_node by exact H.
  destruct (in_tree_level h k j H) as [Hk Hj].
  split; [reflexivity|]. split; [rewrite up_path_length, level_node; reflexivity|].
  split; [|split].
  - intros a. rewrite up_path_in, covers_node. split.
    + intros (i & Hi & ->). split; [exists (S i); reflexivity|]. split.
      * intros E. apply node_inj in E. lia.
      * apply anc_in_tree_iff; [exact H|lia].
    + intros ((d & ->) & Hne & Hin). apply anc_in_tree_iff in Hin; [|exact H].
      destruct d as [|d].
      * exfalso. apply Hne. rewrite Nat.pow_0_r, Nat.div_1_r, Nat.add_0_r. reflexivity.
      * exists d. split; [lia|reflexivity].
  - intros i a Ha.
    assert (Hi : i < h - k) by (rewrite <- (up_path_length k j (h - k)); apply nth_error_Some; congruence).
    rewrite up_path_nth in Ha by exact Hi. injection Ha as <-. rewrite !level_node. lia.
  - rewrite root_complete. destruct (h - k) as [|d] eqn:E.
    + cbn [up_path last]. assert (h = k) as -> by lia.
      rewrite Nat.pow_0_r in Hj. f_equal; lia.
    + assert (L : last (node k j :: up_path k j (S d)) 0 = node (k + S d) (j / 2 ^ S d)).
      { clear. revert k j; induction d as [|d IH]; intros k j.
        - cbn [up_path last]. rewrite Nat.pow_1_r. f_equal; lia.
        - specialize (IH (S k) (j / 2)).
          change (up_path k j (S (S d))) with (node (S k) (j / 2) :: up_path (S k) (j / 2) (S d)).
          change (last (node k j :: node (S k) (j / 2) :: up_path (S k) (j / 2) (S d)) 0)
            with (last (node (S k) (j / 2) :: up_path (S k) (j / 2) (S d)) 0).
          rewrite IH. rewrite Nat.div_div by (pose proof (pow2_pos (S d)); lia).
          rewrite <- pow2_S. f_equal; lia. }
      rewrite L. f_equal; [lia|]. apply Nat.div_small. exact Hj.
Qed.

(** ** C03 *)
Lemma size_new_complete n : size_new n = complete_size (Nat.log2 n).
Proof. unfold size_new, complete_size. rewrite log2_spec, shiftl_1. reflexivity. Qed.

Lemma size_new_least n : 1 <= n ->
  n <= size_new n /\ (forall h, n <= complete_size h -> size_new n <= complete_size h).
Proof.
  intros Hn. rewrite size_new_complete. pose proof (Nat.log2_spec n Hn) as [A B].
  rewrite pow2_S in B. pose proof (complete_size_alt (Nat.log2 n)).
  split; [lia|]. intros h Hh. pose proof (complete_size_alt h).
  assert (Nat.log2 n <= h).
  { apply Nat.lt_succ_r. apply Nat.log2_lt_pow2; [lia|]. rewrite pow2_S. lia. }
  pose proof (pow2_mono _ _ H1). lia.
Qed.

Lemma size_from_leaf_count_complete n : 1 <= n ->
  size_from_leaf_count n = complete_size (Nat.log2 n + 1).
Proof.
  intros Hn. unfold size_from_leaf_count. rewrite size_new_complete. f_equal.
  rewrite Nat.mul_comm, Nat.log2_double by lia. lia.
Qed.

Lemma leaf_count_complete h : leaf_count (complete_size h) = 2 ^ h.
Proof.
  unfold leaf_count. pose proof (complete_size_alt h) as E.
  replace (complete_size h) with (1 + (2 ^ h - 1) * 2) by (pose proof (pow2_pos h); lia).
  rewrite Nat.div_add by lia. cbn [Nat.div Nat.divmod fst]. pose proof (pow2_pos h). lia.
Qed.
Lemma inner_count_complete h : inner_node_count (complete_size h) = 2 ^ h - 1.
Proof.
  pose proof (leaf_count_complete h) as E. unfold leaf_count in E. unfold inner_node_count. lia.
Qed.
Lemma size_inc_complete h : size_inc (complete_size h) = complete_size (S h).
Proof.
  unfold size_inc. pose proof (complete_size_alt h). pose proof (complete_size_alt (S h)).
  rewrite pow2_S in H0. lia.
Qed.

Lemma from_leaf_count_bounds n : 1 <= n ->
  n < leaf_count (size_from_leaf_count n) <= 2 * n.
Proof.
  intros Hn. rewrite size_from_leaf_count_complete, leaf_count_complete by exact Hn.
  rewrite Nat.add_1_r, pow2_S. pose proof (Nat.log2_spec n Hn) as [A B].
  rewrite pow2_S in B. lia.
Qed.
