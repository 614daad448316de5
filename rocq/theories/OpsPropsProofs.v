(** Lemmas behind the theorems of [OpsProps]. *)
From Coq Require Import Arith Lia.
From stdpp Require Import base list gmap relations sorting.
From Verif Require Import ResModel KeysModel TreeModel OpsModel OpsSpec OpsInv OpsProofs OpsEpochs.

Lemma heads_exact_lemma g : graph_reachable g -> forall h,
  h ∈ g_heads g <-> is_Some (g_ops g !! h) /\ forall k, ~ pred_of g h k.
Proof. intros R. apply gi_heads, reachable_ginv, R. Qed.

Lemma graph_causal_lemma g : graph_reachable g ->
  (forall p h, pred_of g p h -> is_Some (g_ops g !! p)) /\ (forall h, ~ before g h h) /\
  (forall h o, g_ops g !! h = Some o -> so_hash o = h).
Proof.
  intros R. apply reachable_ginv in R as V. split; [apply V|]. split; [|apply V].
  destruct (gi_rank _ V) as [rank Hr]. assert (M : forall x y, before g x y -> rank x < rank y).
  { intros x y H. induction H as [x y H|x y z H _ IH]; [apply Hr, H|]. apply Hr in H. lia. }
  intros h Q. apply M in Q. lia.
Qed.

Lemma some_head_lemma g : graph_reachable g -> forall x, is_Some (g_ops g !! x) ->
  exists h, h ∈ g_heads g /\ rtc (pred_of g) x h.
Proof.
  intros R. apply reachable_ginv in R as V. destruct (gi_rank _ V) as [rank Hr].
  assert (B : forall n (X : gset digest) x, size X <= n -> (forall z, is_Some (g_ops g !! z) -> rank x <= rank z -> z ∈ X) ->
     is_Some (g_ops g !! x) -> exists h, h ∈ g_heads g /\ rtc (pred_of g) x h).
  { induction n as [|n IH]; intros X x SX CX Kx.
    - assert (x ∈ X) by (apply CX; [exact Kx|lia]). apply Nat.le_0_r, size_empty_inv in SX. set_solver.
    - destruct (decide (x ∈ g_heads g)) as [H|H]; [exists x; split; [exact H|constructor]|].
      destruct (decide (set_Exists (fun k => x ∈ (match g_ops g !! k with Some o => op_preds (so_op o) | None => ∅ end)) (dom (g_ops g)))) as [Y|Y].
      + destruct Y as (k & Dk & Hk). cbn in Hk. destruct (g_ops g !! k) as [o|] eqn:Eo; [|set_solver].
        assert (P : pred_of g x k) by (exists o; auto).
        destruct (IH (X ∖ {[ x ]}) k) as (h & Hh & Rh).
        * assert (x ∈ X) by (apply CX; [exact Kx|lia]). assert (Q0 : X ∖ {[ x ]} ⊂ X) by set_solver. apply subset_size in Q0. lia.
        * intros z Kz Rz. pose proof (Hr _ _ P). apply elem_of_difference. split; [apply CX; [exact Kz|lia]|].
          rewrite elem_of_singleton. intros ->. lia.
        * rewrite Eo. eauto.
        * exists h. split; [exact Hh|]. eapply rtc_l; eauto.
      + exfalso. apply H, (gi_heads _ V). split; [exact Kx|]. intros k (o & Eo & Ho). apply Y. exists k. split.
        * apply elem_of_dom. rewrite Eo. eauto.
        * cbn. rewrite Eo. exact Ho. }
  intros x Kx. eapply (B (size (dom (g_ops g))) (dom (g_ops g))); [reflexivity| |exact Kx]. intros z Kz _. apply elem_of_dom, Kz.
Qed.

Lemma same_ops_same_graph_lemma g g' : graph_reachable g -> graph_reachable g' -> g_ops g = g_ops g' ->
  g_heads g = g_heads g' /\ g_preds g = g_preds g'.
Proof. intros R R' E. destruct (ginv_ext g g') as [A B]; auto using reachable_ginv. Qed.

Lemma add_heads_exact_lemma g : honest_adds g -> forall h, h ∈ g_add_heads g <-> latest_add g h.
Proof. intros H. apply (add_heads_spec g H). Qed.

Lemma replay_order_lemma g hs : graph_reachable g -> single_root g -> NoDup hs -> hs <> [] ->
  (forall h, h ∈ hs -> is_Some (g_ops g !! h)) ->
  exists epochs, topsort_for_heads g hs = Ok epochs /\ good_replay g hs epochs.
Proof. intros R. apply topsort_for_heads_spec, reachable_ginv, R. Qed.

Lemma heads_nonempty g : graph_reachable g -> g_heads g <> ∅.
Proof. destruct 1; cbn; set_solver. Qed.

Lemma good_replay_heads g hs epochs : graph_reachable g -> (forall h, h ∈ hs <-> h ∈ g_heads g) -> good_replay g hs epochs ->
  forall o, o ∈ concat epochs <-> g_ops g !! so_hash o = Some o.
Proof.
  intros R Hh G o. rewrite (gre_complete _ _ _ G). split; [tauto|]. intros Eo. split; [exact Eo|].
  destruct (some_head_lemma g R (so_hash o)) as (h & Hd & Rh); [eauto|]. exists h. split; [apply Hh, Hd|exact Rh].
Qed.

Lemma ops_graph_eq g g' hs : g_ops g = g_ops g' -> g_preds g = g_preds g' -> topsort_for_heads g hs = topsort_for_heads g' hs.
Proof.
  intros E P. unfold topsort_for_heads.
  assert (W : forall f w, walk_loop f g w = walk_loop f g' w).
  { induction f as [|f IH]; intros w; cbn [walk_loop]; [reflexivity|]. destruct (w_frontier w); [reflexivity|]. rewrite P.
    destruct (g_preds g' !! n); cbn; [apply IH|reflexivity]. }
  assert (G : forall l, get_ops g l = get_ops g' l).
  { induction l as [|h l IH]; cbn; [reflexivity|]. rewrite E. destruct (g_ops g' !! h); cbn; [rewrite IH|]; reflexivity. }
  assert (L : forall f ts s H n a, epoch_loop f g ts s H n a = epoch_loop f g' ts s H n a).
  { induction f as [|f IH]; intros; cbn [epoch_loop]; [reflexivity|]. destruct (ts_is_empty ts); [reflexivity|].
    destruct (pop_all ts) as [l ts']. destruct (enter_heads (H, s) l) as [[a1 b1]| | |]; cbn [rbind]; try reflexivity.
    rewrite G. destruct (get_ops g' l); cbn [rbind]; try reflexivity. destruct (size _ <=? 1); apply IH. }
  rewrite P, W. destruct (walk_loop _ _ _); cbn [rbind]; try reflexivity.
  destruct (ts_is_empty _); [|apply L]. destruct hs; [reflexivity|]. rewrite G. reflexivity.
Qed.

Lemma replay_same_lemma g g' order order' :
  graph_reachable g -> graph_reachable g' -> g_ops g = g_ops g' -> single_root g ->
  (forall s, Permutation (order s) (elements s)) -> (forall s, Permutation (order' s) (elements s)) ->
  exists epochs, topsort_graph g order = Ok epochs /\ topsort_graph g' order' = Ok epochs /\
    good_replay g (elements (g_heads g)) epochs /\
    forall o, o ∈ concat epochs <-> g_ops g !! so_hash o = Some o.
Proof.
  intros R R' E SR O O'. destruct (same_ops_same_graph_lemma g g' R R' E) as [Eh Ep].
  assert (N : NoDup (elements (g_heads g))) by apply NoDup_elements.
  assert (Ne : elements (g_heads g) <> []) by (intros Q; apply elements_empty_inv in Q; apply leibniz_equiv in Q; exact (heads_nonempty g R Q)).
  assert (K : forall h, h ∈ elements (g_heads g) -> is_Some (g_ops g !! h)).
  { intros h Hh. apply elem_of_elements, (heads_exact_lemma g R) in Hh. tauto. }
  assert (V : GInv g) by (apply reachable_ginv, R).
  destruct (topsort_for_heads_spec g (elements (g_heads g)) V SR N Ne K) as (epochs & Ee & G).
  exists epochs. split; [|split; [|split; [exact G|]]].
  - unfold topsort_graph. rewrite <- Ee. symmetry. apply topsort_for_heads_perm; auto. symmetry. apply O.
  - unfold topsort_graph. rewrite <- (ops_graph_eq g g') by assumption. rewrite <- Eh, <- Ee. symmetry.
    apply topsort_for_heads_perm; auto. symmetry. apply O'.
  - eapply good_replay_heads; [exact R| |exact G]. intros h. apply elem_of_elements.
Qed.

Lemma concurrent_share_epoch_lemma g hs epochs i j e e' o o' : good_replay g hs epochs ->
  epochs !! i = Some e -> epochs !! j = Some e' -> o ∈ e -> o' ∈ e' ->
  ~ before g (so_hash o) (so_hash o') -> ~ before g (so_hash o') (so_hash o) -> i = j.
Proof.
  intros G Ei Ej Ho Ho' N N'. destruct (Nat.lt_trichotomy i j) as [L|[L|L]]; [exfalso|exact L|exfalso].
  - apply N. eapply (gre_ordered _ _ _ G); eauto.
  - apply N'. eapply (gre_ordered _ _ _ G); eauto.
Qed.

(** *** Witnesses *)
Ltac by_computation := match goal with |- ?P => refine (proj1 (bool_decide_eq_true P) _) end; vm_compute; reflexivity.
Definition w_op (h : digest) (m : member_id) (ps : list digest) : signed_op := SignedOp h (CAdd m m 0 ps []).

Definition recv (g : graph) (op : signed_op) : graph := add_op g op (op_preds (so_op op)).

(** A group of two initial additions, one of which has a successor. *)
Definition w_two_roots : graph :=
  let g := add_local_op graph_new (w_op 1 10 []) in
  let g := recv g (w_op 2 20 []) in
  recv g (w_op 3 30 [1]).

Lemma w_two_roots_reachable : graph_reachable w_two_roots.
Proof.
  unfold w_two_roots. refine (gr_remote _ (w_op 3 30 [1]) _ _ _); [|vm_compute; reflexivity|vm_compute; reflexivity].
  refine (gr_remote _ (w_op 2 20 []) _ _ _); [|vm_compute; reflexivity|vm_compute; reflexivity].
  apply gr_first. by_computation.
Qed.

Lemma replay_drops_refuted_lemma :
  exists g order epochs o, graph_reachable g /\ (forall s, Permutation (order s) (elements s)) /\
    topsort_graph g order = Ok epochs /\ g_ops g !! so_hash o = Some o /\ o ∉ concat epochs.
Proof.
  exists w_two_roots, elements, [[w_op 1 10 []]; [w_op 3 30 [1]]], (w_op 2 20 []).
  split; [apply w_two_roots_reachable|]. split; [reflexivity|]. split; [vm_compute; reflexivity|]. split; [vm_compute; reflexivity|].
  cbn. rewrite !elem_of_cons, elem_of_nil. intros [Q|[Q|[]]]; discriminate.
Qed.

Definition w_only_roots : graph := recv (add_local_op graph_new (w_op 1 10 [])) (w_op 2 20 []).

Lemma replay_order_dependent_refuted_lemma :
  exists g order order', graph_reachable g /\ (forall s, Permutation (order s) (elements s)) /\
    (forall s, Permutation (order' s) (elements s)) /\ topsort_graph g order <> topsort_graph g order'.
Proof.
  exists w_only_roots, elements, (fun s => reverse (elements s)). split; [|split; [|split]].
  - unfold w_only_roots. refine (gr_remote _ (w_op 2 20 []) _ _ _); [|vm_compute; reflexivity|vm_compute; reflexivity].
    apply gr_first. by_computation.
  - reflexivity.
  - intros s. apply reverse_Permutation.
  - vm_compute. discriminate.
Qed.

(** Merging a graph with an extension of it leaves a superseded head behind. *)
Lemma merge_heads_refuted_lemma :
  exists g g', graph_reachable g /\ graph_reachable g' /\ g_ops g ⊆ g_ops g' /\
    graph_merge g g' <> g' /\ exists h k, h ∈ g_heads (graph_merge g g') /\ pred_of (graph_merge g g') h k.
Proof.
  exists (add_local_op graph_new (w_op 1 10 [])), (add_local_op (add_local_op graph_new (w_op 1 10 [])) (w_op 2 20 [1])).
  split; [apply gr_first; by_computation|]. split.
  { apply gr_local; [apply gr_first; by_computation|vm_compute; reflexivity|by_computation]. }
  split.
  - cbn. apply map_subseteq_spec. intros i x. rewrite lookup_insert_Some, lookup_empty. intros [[<- <-]|[_ Q]]; [|discriminate].
    rewrite lookup_insert_ne by discriminate. apply lookup_insert.
  - split; [intros Q; apply (f_equal g_heads) in Q; vm_compute in Q; discriminate|].
    exists 1, 2. split; [vm_compute; reflexivity|]. exists (w_op 2 20 [1]). split; [vm_compute; reflexivity|]. vm_compute. reflexivity.
Qed.

(** A diamond followed by a join, received in two orders. *)
Definition w_diamond : graph :=
  let g := add_local_op graph_new (w_op 5 10 []) in
  let g := add_local_op g (w_op 9 20 [5]) in
  let g := recv g (w_op 2 30 [5]) in
  let g := add_local_op g (w_op 7 40 [9; 2]) in
  recv g (w_op 1 50 [7]).
Definition w_diamond' : graph :=
  let g := add_local_op graph_new (w_op 5 10 []) in
  let g := recv g (w_op 2 30 [5]) in
  let g := recv g (w_op 9 20 [5]) in
  let g := recv g (w_op 7 40 [9; 2]) in
  add_local_op g (w_op 1 50 [7]).

Lemma w_diamond_reachable : graph_reachable w_diamond /\ graph_reachable w_diamond'.
Proof.
  split; unfold w_diamond, w_diamond'.
  - refine (gr_remote _ (w_op 1 50 [7]) _ _ _); [|vm_compute; reflexivity|vm_compute; reflexivity].
    refine (gr_local _ (w_op 7 40 [9; 2]) _ _ _); [|vm_compute; reflexivity|by_computation].
    refine (gr_remote _ (w_op 2 30 [5]) _ _ _); [|vm_compute; reflexivity|vm_compute; reflexivity].
    refine (gr_local _ (w_op 9 20 [5]) _ _ _); [|vm_compute; reflexivity|by_computation].
    apply gr_first. by_computation.
  - refine (gr_local _ (w_op 1 50 [7]) _ _ _); [|vm_compute; reflexivity|by_computation].
    refine (gr_remote _ (w_op 7 40 [9; 2]) _ _ _); [|vm_compute; reflexivity|vm_compute; reflexivity].
    refine (gr_remote _ (w_op 9 20 [5]) _ _ _); [|vm_compute; reflexivity|vm_compute; reflexivity].
    refine (gr_remote _ (w_op 2 30 [5]) _ _ _); [|vm_compute; reflexivity|vm_compute; reflexivity].
    apply gr_first. by_computation.
Qed.
