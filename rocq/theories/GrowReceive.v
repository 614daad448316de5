(** Growing groups: every operation can be received. *)
From Coq Require Import Arith Lia.
From stdpp Require Import base list gmap relations.
From Verif Require Import ResModel KeysModel TreeModel TreeSpec OpsModel OpsSpec OpsInv OpsProofs OpsPropsProofs
  CgkaModel CgkaSpec CgkaProofs CgkaReplay CgkaConverge CgkaRow NetSpec NetProofs NetKeys TurnCalls GrowSpec CgkaGrow GrowNet.

(** The leaves stand in a row, one for every addition that is known. *)
Definition lined (t : tree) (g : graph) : Prop := exists h ls, rowed t h ls /\ found t ls /\ only t (map l_id ls) /\
  forall A : gset digest, (forall a, a ∈ A -> exists o, g_ops g !! a = Some o /\ is_add (so_op o) = true) -> size A <= length ls.
(** This is so unless changes of members wait for a replay. *)
Definition settled (c : cgka) : Prop := c_pending c = false -> lined (c_tree c) (c_graph c).

Lemma local_single g op : has_single_head (add_local_op g op) = true.
Proof. unfold has_single_head, add_local_op, add_op_and_update_heads. cbn. rewrite union_empty_l_L, size_singleton. reflexivity. Qed.

Lemma init_single id pk op c : cgka_from_init id pk op = Ok c -> has_single_head (c_graph c) = true.
Proof. unfold cgka_from_init. intros E. apply rbind_ok in E as (t & _ & E). injection E as <-. apply local_single. Qed.

Lemma before_last g x z : before g x z -> exists y, pred_of g y z /\ (x = y \/ before g x y).
Proof.
  intros B. induction B as [x z P|x y z P _ IH]; [eauto|]. destruct IH as (w & Pw & [-> |Bw]); exists w; split; auto; right.
  - apply tc_once, P.
  - eapply tc_l; eauto.
Qed.

Section replica.
Context (horder : gset digest -> list digest).
Context (rorder : gset (member_id * nat) -> list (member_id * nat)).
Context (HH : some_order horder) (HR : some_order rorder).

Lemma canonical_lined c t : growing horder rorder c -> canonical horder rorder c t -> lined t (c_graph c).
Proof.
  intros G C. destruct (growing_canonical _ _ HH HR _ _ G C) as (_ & h & ls & R & F & O & Sz). exists h, ls.
  split; [exact R|]. split; [exact F|]. split; [exact O|]. intros A HA.
  set (B := dom (filter (fun p : digest * signed_op => is_add (so_op p.2) = true) (g_ops (c_graph c))) : gset digest).
  assert (HB : forall a, a ∈ B <-> exists o, g_ops (c_graph c) !! a = Some o /\ is_add (so_op o) = true).
  { intros a. unfold B. rewrite elem_of_dom. split.
    - intros [o Q]. apply map_filter_lookup_Some in Q. eauto.
    - intros (o & Ea & Q). exists o. apply map_filter_lookup_Some. auto. }
  rewrite (Sz _ HB). apply subseteq_size. intros a Ha. apply HB, HA, Ha.
Qed.
Lemma head_lined c : growing horder rorder c -> has_single_head (c_graph c) = true -> lined (c_tree c) (c_graph c).
Proof. intros G S. apply canonical_lined; [exact G|]. destruct G as [Rc SR U _ _]. apply (quiescent_canonical_inv horder rorder HH HR c Rc); assumption. Qed.
Lemma replayed_lined c c1 : growing horder rorder c -> maybe_replay horder rorder c = Ok c1 -> lined (c_tree c1) (c_graph c).
Proof. intros G E. apply canonical_lined; [exact G|]. eapply growing_maybe_replay; eauto. Qed.

(** An operation all of whose ancestors are known here can be applied. *)
Lemma lined_room G t g op : lined t g -> GInv g -> g_ops g ⊆ g_ops G -> (forall p, p ∈ op_preds (so_op op) -> is_Some (g_ops g !! p)) ->
  g_ops G !! so_hash op = Some op -> update_fits G op -> is_update (so_op op) = true -> exists t', tree_apply t (so_op op) = Ok t' /\ lined t' (add_op g op (op_preds (so_op op))).
Proof.
  intros (h & ls & R & F & O & Sz) V Sub Kn Eop UF U. unfold update_fits in UF. destruct (so_op op) as [| |id pc ps] eqn:Eo; try discriminate. cbn [tree_apply].
  destruct UF as (Fit & A & Hi & HA).
  assert (Le : size A <= length ls).
  { apply Sz. intros a Ha. destruct (HA _ Ha) as (B & oa & Ea & Ad).
    assert (K : is_Some (g_ops g !! a)).
    { destruct (before_last _ _ _ B) as (y & (o & Q & Hy) & Bz). rewrite Eop in Q. injection Q as <-. rewrite Eo in Hy. apply Kn in Hy.
      destruct Bz as [-> |Bz]; [exact Hy|]. apply (before_down g G V Sub _ _ Bz Hy). }
    destruct K as [o K]. exists o. split; [exact K|]. rewrite (lookup_weaken _ _ _ _ K Sub) in Ea. injection Ea as ->. exact Ad. }
  destruct (apply_rowed t h ls pc R F O) as (t' & ls' & E & R' & I' & U'); [pose proof (rw_fit _ _ _ R); lia|exact Fit|].
  pose proof (ids_forall2 _ _ _ U') as Ei.
  exists t'. split; [exact E|]. exists h, ls'. split; [exact R'|]. split; [|split].
  - intros j l Hl. rewrite I'. destruct (Forall2_lookup_r _ _ _ _ _ U' Hl) as (l0 & Hl0 & Lu). destruct Lu as [-> _]. eauto.
  - intros x Hx. rewrite Ei. apply O. rewrite <- I'. exact Hx.
  - intros X HX. rewrite <- (Forall2_length _ _ _ U'). apply Sz. intros a Ha. destruct (HX a Ha) as (o & Q & Ad).
    unfold add_op, add_op_and_update_heads in Q. cbn [g_ops] in Q. apply lookup_insert_Some in Q as [[_ <-]|[_ Q]]; [rewrite Eo in Ad; discriminate|eauto].
Qed.

(** What a call leaves. *)
Inductive outcome (c c' : cgka) : Prop :=
| oc_same : c_tree c' = c_tree c -> c_graph c' = c_graph c -> c_pending c' = c_pending c -> outcome c c'
| oc_replayed c1 : maybe_replay horder rorder c = Ok c1 -> c_tree c' = c_tree c1 -> c_graph c' = c_graph c -> outcome c c'
| oc_head : has_single_head (c_graph c') = true -> outcome c c'.
Lemma outcome_settled c c' : growing horder rorder c -> growing horder rorder c' -> settled c -> outcome c c' -> settled c'.
Proof.
  intros G G' St [T Gr P|c1 Em T Gr|Hs] P'.
  - rewrite T, Gr. apply St. congruence.
  - rewrite T, Gr. eapply replayed_lined; eauto.
  - apply head_lined; assumption.
Qed.

Lemma add_outcome c id pk h c' x : cgka_add horder rorder c id pk h = (c', x) -> outcome c c'.
Proof.
  unfold cgka_add. destruct (contains_id _ _); [intros Q; injection Q as <- <-; apply oc_same; reflexivity|].
  destruct (maybe_replay horder rorder c) as [c1|e| |] eqn:Em; intros Q; [|injection Q as <- <-; apply oc_same; reflexivity..].
  pose proof (maybe_replay_graph _ _ _ _ Em) as (G & _). destruct (push_leaf _ _ _) as [[t i]|e| |]; injection Q as <- <-;
    [apply oc_head, local_single|eapply oc_replayed; [exact Em|reflexivity|exact G]..].
Qed.
Lemma remove_outcome c id h c' x : cgka_remove horder rorder c id h = (c', x) -> outcome c c'.
Proof.
  unfold cgka_remove. destruct (negb _); [intros Q; injection Q as <- <-; apply oc_same; reflexivity|].
  destruct (maybe_replay horder rorder c) as [c1|e| |] eqn:Em; intros Q; [|injection Q as <- <-; apply oc_same; reflexivity..].
  pose proof (maybe_replay_graph _ _ _ _ Em) as (G & _). destruct (_ =? 1); [injection Q as <- <-; eapply oc_replayed; [exact Em|reflexivity|exact G]|].
  destruct (remove_id _ _) as [[t [i ks]]|e| |]; injection Q as <- <-;
    [apply oc_head, local_single|eapply oc_replayed; [exact Em|reflexivity|exact G]..].
Qed.
Lemma update_outcome c sk h rng c' x : cgka_update horder rorder c sk h rng = (c', x) -> outcome c c'.
Proof.
  unfold cgka_update. destruct (maybe_replay horder rorder c) as [c1|e| |] eqn:Em; intros Q; [|injection Q as <- <-; apply oc_same; reflexivity..].
  pose proof (maybe_replay_graph _ _ _ _ Em) as (G & _).
  destruct (update_identity _ _ _) as [[[id pk] sk']|e| |]; [|injection Q as <- <-; eapply oc_replayed; [exact Em|reflexivity|exact G]..].
  destruct (encrypt_path _ _ _ _ _) as [[[[[t k] path] sks] rng']|e| |] eqn:Ee; injection Q as <- <-;
    [apply oc_head, local_single|eapply oc_replayed; [exact Em|reflexivity|exact G]..].
Qed.
Lemma quiet_outcome c c' : quiet c c' -> outcome c c'.
Proof. intros Q. apply oc_same; apply Q. Qed.
Lemma outcome_quiet c c1 c' : outcome c c1 -> quiet c1 c' -> outcome c c'.
Proof.
  intros [T G P|c2 E T G|Hs] [_ QT QG QP _ _ _].
  - apply oc_same; congruence.
  - eapply oc_replayed; [exact E|congruence|congruence].
  - apply oc_head. rewrite QG. exact Hs.
Qed.
Lemma encrypt_outcome c ref content preds sk h rng c' x : new_app_secret_for horder rorder c ref content preds sk h rng = (c', x) -> outcome c c'.
Proof.
  unfold new_app_secret_for. destruct (has_pcs_key c) as [[]|e| |].
  3-5: intros Q; injection Q as <- <-; apply oc_same; reflexivity.
  - destruct (pcs_key_from_tree_root c) as [c1 r1] eqn:Er. apply root_quiet in Er. intros Q. apply quiet_outcome. eapply quiet_trans; [exact Er|].
    destruct r1 as [k|e| |]; [|injection Q as <- <-; apply quiet_refl..].
    destruct (c_pcs _ !! _); [|destruct (horder _)]; destruct (c_pcs_ops _ !! _); injection Q as <- <-; first [apply quiet_refl|apply quiet_pcs].
  - destruct (cgka_update _ _ _ _ _ _) as [c1 r1] eqn:Eu. apply update_outcome in Eu. intros Q. eapply outcome_quiet; [exact Eu|].
    destruct r1 as [[[k op] rng']|e| |]; [|injection Q as <- <-; apply quiet_refl..].
    destruct (c_pcs_ops _ !! _); injection Q as <- <-; first [apply quiet_refl|apply quiet_pcs].
Qed.

(** Receiving an operation whose ancestors are known. *)
Lemma receive_lined G c op : growing horder rorder c -> settled c -> g_ops (c_graph c) ⊆ g_ops G -> g_ops G !! so_hash op = Some op -> update_fits G op ->
  (forall id i ks ps, so_op op <> CRemove id i ks ps) -> (forall p, p ∈ op_preds (so_op op) -> is_Some (g_ops (c_graph c) !! p)) ->
  exists c' b, merge_concurrent_operation horder rorder c op = (c', Ok b) /\ (growing horder rorder c' -> settled c').
Proof.
  intros Gc St Sub Eop UF NR Kn. unfold merge_concurrent_operation.
  destruct (contains_op _ _) eqn:Ec; [exists c, false; auto|].
  assert (CP : contains_predecessors (c_graph c) (op_preds (so_op op)) = true) by (apply bool_decide_eq_true; exact Kn). rewrite CP. cbn [negb].
  assert (Rg : graph_reachable (c_graph c)) by (eapply cgka_graph_reachable; [exact HH|apply (gg_reach _ _ _ Gc)]).
  pose proof (reachable_ginv _ Rg) as V.
  destruct (heads_contained_in (c_graph c) (op_preds (so_op op))) eqn:Eh; cbn [negb].
  - destruct (growing_replay_ok _ _ HH HR c Gc) as [c1 Em]. rewrite Em. pose proof (replayed_lined c c1 Gc Em) as Ln.
    pose proof (maybe_replay_graph _ _ _ _ Em) as (Gr & _). rewrite apply_operation_eq, Gr, Ec.
    assert (Q : exists t', tree_apply (c_tree c1) (so_op op) = Ok t').
    { destruct (is_update (so_op op)) eqn:U.
      - destruct (lined_room G (c_tree c1) (c_graph c) op) as (t' & E & _); eauto.
      - destruct (so_op op) as [id pk i ps qs|id i ks ps|id pc ps] eqn:Eo; [|exfalso; eapply NR; reflexivity|discriminate].
        destruct Ln as (h & ls & R & F & O & Sz). destruct (push_rowed (c_tree c1) h ls (LeafNode id (SKey pk)) R) as (t' & h' & E & _). cbn [l_id l_pk] in E. cbn [tree_apply]. rewrite E. cbn [rbind]. eauto. }
    destruct Q as [t' E]. rewrite E. cbn [rbind]. eexists _, true. split; [reflexivity|]. intros G' _. apply head_lined; [exact G'|].
    cbn [c_graph set_graph set_tree]. unfold has_single_head, add_op, add_op_and_update_heads. cbn [g_heads]. unfold heads_contained_in in Eh. apply bool_decide_eq_true in Eh.
    assert (D : g_heads (c_graph c) ∖ op_preds (so_op op) = ∅) by set_solver +Eh. rewrite D. rewrite union_empty_l_L, size_singleton. reflexivity.
  - destruct (c_pending c) eqn:P; [eexists _, true; split; [reflexivity|]; intros _ Z; cbn in Z; congruence|].
    destruct (is_update (so_op op)) eqn:U.
    + rewrite apply_operation_eq, Ec. destruct (lined_room G (c_tree c) (c_graph c) op (St P)) as (t' & E & L'); auto. rewrite E. cbn [rbind].
      eexists _, true. split; [reflexivity|]. intros _ _. exact L'.
    + eexists _, true. split; [reflexivity|]. intros _ Z. discriminate.
Qed.
End replica.

Section net.
Context (horder : nat -> gset digest -> list digest).
Context (rorder : nat -> gset (member_id * nat) -> list (member_id * nat)).
Context (HH : forall r, some_order (horder r)) (HR : forall r, some_order (rorder r)).

Lemma step_ops n n' : net_step horder rorder n n' -> n_ops n ⊆ n_ops n'.
Proof. intros St. destruct St; cbn [moved sent n_ops]; apply map_union_subseteq_l. Qed.

Lemma net_settled n : net_reachable horder rorder n -> only_grows (n_ops n) -> forall r c, n_reps n !! r = Some c -> settled c.
Proof.
  intros R. induction R as [r0 id pk h c0 E0|n n' R IH St]; intros OG r c' E'.
  - cbn in E'. apply lookup_singleton_Some in E' as [<- <-]. intros _.
    assert (G : growing (horder r0) (rorder r0) c0) by (eapply net_growing; [exact HH|exact HR|apply nr_start; exact E0|exact OG|cbn; apply lookup_singleton]).
    apply (head_lined _ _ (HH r0) (HR r0) c0 G). eapply init_single; exact E0.
  - pose proof (net_growing horder rorder HH HR _ _ _ (nr_step _ _ _ _ R St) OG E') as G'.
    assert (OG0 : only_grows (n_ops n)) by (eapply only_grows_mono; [eapply step_ops; exact St|exact OG]). specialize (IH OG0).
    assert (M : forall r0 c c1, n_reps n !! r0 = Some c -> outcome (horder r0) (rorder r0) c c1 -> <[r0 := c1]> (n_reps n) !! r = Some c' -> settled c').
    { intros r0 c c1 E Oc Q. apply lookup_insert_Some in Q as [[<- <-]|[_ Q]]; [|eauto].
      eapply outcome_settled; [apply HH|apply HR|eapply net_growing; eauto|exact G'|eauto|exact Oc]. }
    destruct St as [r0 id pk h c N E Ec|r0 c id sks E G|r0 c c1 id pk h x E N Q|r0 c c1 id h x E N Q|r0 c c1 sk h rng x E N Q|r0 c c1 h op x E N Q|r0 c c1 ref content preds sk h rng s o E N Q|r0 c c1 ref content preds sk h rng x E N Q _|r0 c c1 e x E N Q]; cbn [moved sent n_reps] in E'.
    + apply lookup_insert_Some in E' as [[<- <-]|[_ E']]; [|eauto]. intros _. apply (head_lined _ _ (HH r0) (HR r0) c G'). eapply init_single; exact Ec.
    + apply (M r0 c (with_new_owner c id sks)); [exact E|apply oc_same; reflexivity|exact E'].
    + eapply M; [exact E|eapply add_outcome; exact Q|exact E'].
    + eapply M; [exact E|eapply remove_outcome; exact Q|exact E'].
    + eapply M; [exact E|eapply update_outcome; exact Q|exact E'].
    + apply lookup_insert_Some in E' as [[<- <-]|[_ E']]; [|eauto].
      pose proof (net_reachable_ok horder rorder HH HR _ R) as K. pose proof (no_sub _ _ _ K _ _ E) as Sub.
      assert (so_hash op = h) by (eapply (oo_hash _ (no_ops _ _ _ K)); eauto). subst h.
      pose proof (merge_step _ _ _ _ _ _ Q) as (_ & _ & _ & [(_ & -> & _)|[(_ & _ & -> & _)|(_ & P & _)]]); [eauto..|].
      destruct (receive_lined (horder r0) (rorder r0) (HH r0) (HR r0) (all_ops (n_ops n)) c op) as (c2 & b & Q' & S2).
      * eapply net_growing; eauto.
      * eauto.
      * exact Sub.
      * exact N.
      * eapply growing_net; eauto.
      * intros id i ks ps. destruct OG0 as [O1 _]. eapply O1; exact N.
      * apply bool_decide_eq_true in P. exact P.
      * rewrite Q in Q'. injection Q' as -> _. apply S2, G'.
    + eapply M; [exact E|eapply encrypt_outcome; exact Q|exact E'].
    + eapply M; [exact E|eapply encrypt_outcome; exact Q|exact E'].
    + eapply M; [exact E|apply quiet_outcome; eapply decryption_quiet; exact Q|exact E'].
Qed.

Lemma net_receives n r c h op : net_reachable horder rorder n -> only_grows (n_ops n) -> n_reps n !! r = Some c -> n_ops n !! h = Some op ->
  (forall p, p ∈ op_preds (so_op op) -> is_Some (g_ops (c_graph c) !! p)) -> exists c' b, merge_concurrent_operation (horder r) (rorder r) c op = (c', Ok b).
Proof.
  intros R OG E N Kn. pose proof (net_reachable_ok horder rorder HH HR _ R) as K. pose proof (no_sub _ _ _ K _ _ E) as Sub.
  assert (so_hash op = h) by (eapply (oo_hash _ (no_ops _ _ _ K)); eauto). subst h.
  destruct (receive_lined (horder r) (rorder r) (HH r) (HR r) (all_ops (n_ops n)) c op) as (c2 & b & Q' & _); eauto.
  - eapply net_growing; eauto.
  - eapply net_settled; eauto.
  - eapply growing_net; eauto.
  - intros id i ks ps. destruct OG as [O1 _]. eapply O1; exact N.
Qed.
End net.
