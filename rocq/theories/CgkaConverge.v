(** Quiescent replicas with the same operations hold the same key tree. *)
From Coq Require Import Arith Lia.
From stdpp Require Import base list gmap relations.
From Verif Require Import ResModel KeysModel TreeMathModel TreeModel OpsModel OpsSpec OpsInv OpsProofs OpsEpochs OpsPropsProofs OpsExtend
  CgkaModel CgkaSpec CgkaProofs CgkaReplay.

(** What an operation does to the tree. *)
Definition tree_apply (t : tree) (op : cgka_op) : res tree :=
  match op with
  | CAdd id pk _ _ _ => let! (t, _) := push_leaf t id (SKey pk) in Ok t
  | CRemove id _ _ _ => let! (t, _) := remove_id t id in Ok t
  | CUpdate _ path _ => apply_path t path
  end.
Lemma apply_operation_eq c op : apply_operation c op =
  if contains_op (c_graph c) (so_hash op) then Ok c
  else let! t := tree_apply (c_tree c) (so_op op) in Ok (set_graph (set_tree c t) (add_op (c_graph c) op (op_preds (so_op op)))).
Proof. reflexivity. Qed.

Definition same_core (c d : cgka) : Prop := c_tree c = c_tree d /\ c_graph c = c_graph d.

Lemma apply_operation_core c d op c1 : same_core c d -> apply_operation c op = Ok c1 ->
  exists d1, apply_operation d op = Ok d1 /\ same_core c1 d1.
Proof.
  intros [T G]. rewrite !apply_operation_eq, <- T, <- G. destruct (contains_op _ _).
  - intros Q. injection Q as <-. exists d. split; [reflexivity|]. split; assumption.
  - destruct (tree_apply _ _); cbn [rbind]; [|discriminate..]. intros Q. injection Q as <-. eexists. split; [reflexivity|]. split; reflexivity.
Qed.
Lemma apply_operations_core es : forall c d c1, same_core c d -> apply_operations c es = Ok c1 ->
  exists d1, apply_operations d es = Ok d1 /\ same_core c1 d1.
Proof.
  induction es as [|op es IH]; intros c d c1 S; cbn [apply_operations].
  - intros Q. injection Q as <-. eauto.
  - intros Q. apply rbind_ok in Q as (c2 & E & Q). destruct (apply_operation_core _ _ _ _ S E) as (d2 & E' & S'). rewrite E'. cbn [rbind]. eauto.
Qed.

Section two_orders.
Context (rorder rorder' : gset (member_id * nat) -> list (member_id * nat)).
Context (HR : some_order rorder) (HR' : some_order rorder').

Lemma apply_epoch_core e c d c1 : same_core c d -> apply_epoch rorder c e = Ok c1 ->
  exists d1, apply_epoch rorder' d e = Ok d1 /\ same_core c1 d1.
Proof.
  intros S. assert (G : forall e, (if forallb (fun op => is_update (so_op op)) e then apply_operations c e
      else let! c := apply_operations c e in
           let! t := sort_leaves_and_blank_paths (c_tree c) (epoch_added e) (rorder (epoch_removed e)) in
           Ok (set_tree c t)) = Ok c1 ->
    exists d1, (if forallb (fun op => is_update (so_op op)) e then apply_operations d e
      else let! c := apply_operations d e in
           let! t := sort_leaves_and_blank_paths (c_tree c) (epoch_added e) (rorder' (epoch_removed e)) in
           Ok (set_tree c t)) = Ok d1 /\ same_core c1 d1).
  { clear e. intros e. destruct (forallb _ e); [apply apply_operations_core, S|]. intros Q. apply rbind_ok in Q as (c2 & E & Q).
    destruct (apply_operations_core _ _ _ _ S E) as (d2 & E' & [T2 G2]). rewrite E'. cbn [rbind]. apply rbind_ok in Q as (t & Et & Q). injection Q as <-.
    rewrite <- T2. erewrite sort_leaves_perm; [|..|exact Et]; [|rewrite (HR _), (HR' _); reflexivity]. cbn [rbind].
    eexists. split; [reflexivity|]. split; [reflexivity|exact G2]. }
  destruct e as [|op [|op' e]].
  - apply (G []).
  - apply apply_operation_core, S.
  - apply (G (op :: op' :: e)).
Qed.
Lemma apply_epochs_core es : forall c d c1, same_core c d -> apply_epochs rorder c es = Ok c1 ->
  exists d1, apply_epochs rorder' d es = Ok d1 /\ same_core c1 d1.
Proof.
  induction es as [|e es IH]; intros c d c1 S; cbn [apply_epochs].
  - intros Q. injection Q as <-. eauto.
  - intros Q. apply rbind_ok in Q as (c2 & E & Q). destruct (apply_epoch_core _ _ _ _ S E) as (d2 & E' & S'). rewrite E'. cbn [rbind]. eauto.
Qed.
End two_orders.

(** Replaying the epochs [es] from the group's first operation ends with tree [t]. *)
Definition replays rorder (orig : member_id * share_key) (init : signed_op) es (t : tree) (g : graph) : Prop :=
  exists c0 c1, cgka_from_init orig.1 orig.2 init = Ok c0 /\ apply_epochs rorder c0 es = Ok c1 /\ c_tree c1 = t /\ c_graph c1 = g.

Lemma replays_det rorder rorder' orig init es t g t' g' : some_order rorder -> some_order rorder' ->
  replays rorder orig init es t g -> replays rorder' orig init es t' g' -> t = t' /\ g = g'.
Proof.
  intros HR HR' (c0 & c1 & E0 & E1 & <- & <-) (d0 & d1 & F0 & F1 & <- & <-). rewrite E0 in F0. injection F0 as <-.
  destruct (apply_epochs_core rorder rorder' HR HR' es c0 c0 c1) as (d2 & F2 & [T G]); [split; reflexivity|exact E1|].
  rewrite F1 in F2. injection F2 as <-. auto.
Qed.

Lemma rebuild_from_replays rorder c es c1 : some_order rorder -> rebuild_from rorder c es = Ok c1 ->
  replays rorder (c_original c) (c_init c) es (c_tree c1) (c_graph c1).
Proof.
  intros HR Q. unfold rebuild_from in Q. apply rbind_ok in Q as (c0 & E0 & Q).
  destruct (apply_epochs_core rorder rorder HR HR es (with_new_owner c0 (c_owner c) (c_sks c)) c0 c1) as (d & F & [T G]); [|exact Q|].
  { split; reflexivity. }
  exists c0, d. rewrite <- T, <- G. auto.
Qed.

Lemma apply_epochs_app rorder es es' c : apply_epochs rorder c (es ++ es') = rbind (apply_epochs rorder c es) (fun c => apply_epochs rorder c es').
Proof.
  revert c. induction es as [|e es IH]; intros c; cbn [apply_epochs app]; [reflexivity|].
  destruct (apply_epoch rorder c e) as [c1|er| |]; cbn [rbind]; [apply IH|reflexivity..].
Qed.

Lemma replays_snoc rorder orig init es t g op t' : replays rorder orig init es t g -> contains_op g (so_hash op) = false ->
  tree_apply t (so_op op) = Ok t' -> replays rorder orig init (es ++ [[op]]) t' (add_op g op (op_preds (so_op op))).
Proof.
  intros (c0 & c1 & E0 & E1 & <- & <-) N A. exists c0. eexists. split; [exact E0|]. rewrite apply_epochs_app, E1. cbn [rbind apply_epochs apply_epoch].
  rewrite apply_operation_eq, N, A. cbn [rbind]. split; [reflexivity|]. split; reflexivity.
Qed.

(** Replay only adds the operations it is given. *)
Lemma apply_operation_known c op c1 x : apply_operation c op = Ok c1 -> contains_op (c_graph c1) x = true ->
  contains_op (c_graph c) x = true \/ x = so_hash op.
Proof.
  intros E K. apply apply_operation_graph in E as [[-> _]|[_ [t ->]]]; [auto|]. cbn in K. unfold contains_op in *. apply bool_decide_eq_true in K. cbn in K.
  destruct (decide (x = so_hash op)) as [|N]; [auto|]. left. apply bool_decide_eq_true. rewrite lookup_insert_ne in K by auto. exact K.
Qed.
Lemma apply_operations_known es : forall c c1 x, apply_operations c es = Ok c1 -> contains_op (c_graph c1) x = true ->
  contains_op (c_graph c) x = true \/ x ∈ map so_hash es.
Proof.
  induction es as [|op es IH]; intros c c1 x; cbn [apply_operations].
  - intros Q. injection Q as <-. auto.
  - intros Q K. apply rbind_ok in Q as (c2 & E & Q). apply (IH _ _ _ Q) in K as [K|K]; [|right; right; exact K].
    apply (apply_operation_known _ _ _ _ E) in K as [K| ->]; [auto|right; left].
Qed.
Lemma apply_epoch_known rorder e c c1 x : apply_epoch rorder c e = Ok c1 -> contains_op (c_graph c1) x = true ->
  contains_op (c_graph c) x = true \/ x ∈ map so_hash e.
Proof.
  intros E K.
  assert (G : (if forallb (fun op => is_update (so_op op)) e then apply_operations c e
      else let! c := apply_operations c e in
           let! t := sort_leaves_and_blank_paths (c_tree c) (epoch_added e) (rorder (epoch_removed e)) in
           Ok (set_tree c t)) = Ok c1 -> contains_op (c_graph c) x = true \/ x ∈ map so_hash e).
  { destruct (forallb _ e); [intros Q; eapply apply_operations_known; eauto|]. intros Q. apply rbind_ok in Q as (c2 & E2 & Q).
    apply rbind_ok in Q as (t & _ & Q). injection Q as <-. eapply apply_operations_known; eauto. }
  destruct e as [|op [|op' e]]; [exact (G E)| |exact (G E)].
  apply (apply_operation_known _ _ _ _ E) in K as [K| ->]; [auto|right; left].
Qed.
Lemma apply_epochs_known rorder es : forall c c1 x, apply_epochs rorder c es = Ok c1 -> contains_op (c_graph c1) x = true ->
  contains_op (c_graph c) x = true \/ x ∈ map so_hash (concat es).
Proof.
  induction es as [|e es IH]; intros c c1 x; cbn [apply_epochs concat].
  - intros Q. injection Q as <-. auto.
  - intros Q K. apply rbind_ok in Q as (c2 & E & Q). apply (IH _ _ _ Q) in K as [K|K].
    + apply (apply_epoch_known _ _ _ _ _ E) in K as [K|K]; [auto|]. right. rewrite map_app. apply elem_of_app. auto.
    + right. rewrite map_app. apply elem_of_app. auto.
Qed.

Section converge.
Context (horder : gset digest -> list digest).
Context (rorder : gset (member_id * nat) -> list (member_id * nat)).
Context (HH : some_order horder) (HR : some_order rorder).

(** ** What a step does to tree and graph *)
Inductive tree_step (c c' : cgka) : Prop :=
| ts_same : c_tree c' = c_tree c -> c_graph c' = c_graph c -> tree_step c c'
| ts_replayed c1 : maybe_replay horder rorder c = Ok c1 -> c_tree c' = c_tree c1 -> c_graph c' = c_graph c -> tree_step c c'
| ts_next c1 op : maybe_replay horder rorder c = Ok c1 -> contains_op (c_graph c) (so_hash op) = false ->
    g_heads (c_graph c) ⊆ op_preds (so_op op) -> tree_apply (c_tree c1) (so_op op) = Ok (c_tree c') ->
    g_ops (c_graph c') = <[so_hash op := op]> (g_ops (c_graph c)) -> tree_step c c'
| ts_concurrent op : contains_op (c_graph c) (so_hash op) = false ->
    ~ g_heads (c_graph c) ⊆ op_preds (so_op op) ->
    g_ops (c_graph c') = <[so_hash op := op]> (g_ops (c_graph c)) -> tree_step c c'.

Lemma update_tree_step c sk h rng c' r : contains_op (c_graph c) h = false ->
  cgka_update horder rorder c sk h rng = (c', r) -> tree_step c c'.
Proof.
  intros F. unfold cgka_update.
  destruct (maybe_replay horder rorder c) as [c1|e| |] eqn:Em; intros Q.
  2-4: injection Q as <- <-; apply ts_same; reflexivity.
  pose proof (maybe_replay_graph _ _ _ _ Em) as (G & O & I & W).
  destruct (update_identity _ _ _) as [[[id pk] sk']|e| |].
  2-4: injection Q as <- <-; eapply ts_replayed; [exact Em|reflexivity|exact G].
  destruct (encrypt_path _ _ _ _ _) as [[[[[t k] path] sks] rng']|e| |] eqn:Ee.
  2-4: injection Q as <- <-; eapply ts_replayed; [exact Em|reflexivity|exact G].
  injection Q as <- <-.
  apply (ts_next c _ c1 (SignedOp h (CUpdate id path (horder (g_heads (c_graph c1)))))); cbn.
  - exact Em.
  - exact F.
  - rewrite G. rewrite (horder_set horder _ HH). reflexivity.
  - eapply encrypt_path_apply. exact Ee.
  - rewrite G. reflexivity.
Qed.

Lemma cgka_step_tree c c' : cgka_step horder rorder c c' -> tree_step c c'.
Proof.
  intros S. destruct S as [id pk h r F Q|id h r F Q|sk h rng r F Q|op r Q|ref content preds sk h rng r F Q|e r Q|id sks ->].
  - unfold cgka_add in Q. destruct (contains_id _ _); [injection Q as <- <-; apply ts_same; reflexivity|].
    destruct (maybe_replay horder rorder c) as [c1|e| |] eqn:Em.
    2-4: injection Q as <- <-; apply ts_same; reflexivity.
    pose proof (maybe_replay_graph _ _ _ _ Em) as (G & O & I & W).
    destruct (push_leaf _ _ _) as [[t i]|e| |] eqn:Ep; injection Q as <- <-; cbn.
    2-4: eapply ts_replayed; [exact Em|reflexivity|exact G].
    apply (ts_next c _ c1 (SignedOp h (CAdd id pk i (horder (g_heads (c_graph c1))) (horder (g_add_heads (c_graph c1)))))); cbn.
    + exact Em.
    + exact F.
    + rewrite G, (horder_set horder _ HH). reflexivity.
    + rewrite Ep. reflexivity.
    + rewrite G. reflexivity.
  - unfold cgka_remove in Q. destruct (negb _); [injection Q as <- <-; apply ts_same; reflexivity|].
    destruct (maybe_replay horder rorder c) as [c1|e| |] eqn:Em.
    2-4: injection Q as <- <-; apply ts_same; reflexivity.
    pose proof (maybe_replay_graph _ _ _ _ Em) as (G & O & I & W).
    destruct (_ =? 1); [injection Q as <- <-; eapply ts_replayed; [exact Em|reflexivity|exact G]|].
    destruct (remove_id _ _) as [[t [i ks]]|e| |] eqn:Ep; injection Q as <- <-; cbn.
    2-4: eapply ts_replayed; [exact Em|reflexivity|exact G].
    apply (ts_next c _ c1 (SignedOp h (CRemove id i ks (horder (g_heads (c_graph c1)))))); cbn.
    + exact Em.
    + exact F.
    + rewrite G, (horder_set horder _ HH). reflexivity.
    + rewrite Ep. reflexivity.
    + rewrite G. reflexivity.
  - eapply update_tree_step; eauto.
  - unfold merge_concurrent_operation in Q. destruct (contains_op _ _) eqn:Ec; [injection Q as <- <-; apply ts_same; reflexivity|].
    destruct (negb (contains_predecessors _ _)); [injection Q as <- <-; apply ts_same; reflexivity|].
    unfold heads_contained_in in Q. destruct (bool_decide _) eqn:Eh; cbn [negb] in Q.
    + apply bool_decide_eq_true in Eh.
      destruct (maybe_replay horder rorder c) as [c1|e| |] eqn:Em.
      2-4: injection Q as <- <-; apply ts_same; reflexivity.
      pose proof (maybe_replay_graph _ _ _ _ Em) as (G & O & I & W).
      rewrite apply_operation_eq, G, Ec in Q. destruct (tree_apply _ _) as [t|e| |] eqn:Et; cbn [rbind] in Q; injection Q as <- <-.
      2-4: eapply ts_replayed; [exact Em|reflexivity|exact G].
      eapply ts_next; [exact Em|exact Ec|exact Eh|exact Et|reflexivity].
    + apply bool_decide_eq_false in Eh.
      destruct (c_pending c); [injection Q as <- <-; eapply ts_concurrent; [exact Ec|exact Eh|reflexivity]|].
      destruct (is_update _); [|injection Q as <- <-; eapply ts_concurrent; [exact Ec|exact Eh|reflexivity]].
      rewrite apply_operation_eq, Ec in Q. destruct (tree_apply _ _) as [t|e| |] eqn:Et; cbn [rbind] in Q; injection Q as <- <-.
      2-4: apply ts_same; reflexivity.
      eapply ts_concurrent; [exact Ec|exact Eh|reflexivity].
  - unfold new_app_secret_for in Q. destruct (has_pcs_key c) as [[]|e| |].
    3-5: injection Q as <- <-; apply ts_same; reflexivity.
    + destruct (pcs_key_from_tree_root c) as [c1 r1] eqn:Er. apply root_graph in Er as [sks ->].
      destruct r1 as [k|e| |].
      2-4: injection Q as <- <-; apply ts_same; reflexivity.
      destruct (c_pcs _ !! _).
      * destruct (c_pcs_ops _ !! _); injection Q as <- <-; apply ts_same; reflexivity.
      * destruct (horder _); destruct (c_pcs_ops _ !! _); injection Q as <- <-; apply ts_same; reflexivity.
    + destruct (cgka_update _ _ _ _ _ _) as [c1 r1] eqn:Eu. apply update_tree_step in Eu; [|exact F].
      destruct r1 as [[[k op] rng']|e| |].
      2-4: injection Q as <- <-; auto.
      assert (Z : c_tree c' = c_tree c1 /\ c_graph c' = c_graph c1) by (destruct (c_pcs_ops _ !! _); injection Q as <- <-; auto).
      destruct Z as [ZT ZG]. destruct Eu as [A B|c2 A B C|c2 op' A B C D E|op' A B C].
      * apply ts_same; congruence.
      * eapply ts_replayed; [exact A|congruence|congruence].
      * eapply ts_next; [exact A|exact B|exact C|rewrite ZT; exact D|rewrite ZG; exact E].
      * eapply ts_concurrent; [exact A|exact B|rewrite ZG; exact C].
  - assert (DG : forall c1 c2 h r, derive_pcs_key_for_op rorder c1 h = (c2, r) -> c_tree c2 = c_tree c1 /\ c_graph c2 = c_graph c1).
    { intros c1 c2 h r1 D. unfold derive_pcs_key_for_op in D. destruct (negb _); [injection D as <- <-; auto|].
      destruct (topsort_for_heads _ _); [|injection D as <- <-; auto..].
      unfold rebuild_pcs_key in D. destruct (rbind _ _); [|injection D as <- <-; auto..].
      destruct (last_first _); injection D as <- <-; auto. }
    assert (PG : forall c2 r, pcs_key_from_hashes rorder c (ec_pcs e) (ec_op e) = (c2, r) -> c_tree c2 = c_tree c /\ c_graph c2 = c_graph c).
    { intros c2 r2. unfold pcs_key_from_hashes. destruct (c_pcs c !! _); [intros D; injection D as <- <-; auto|].
      destruct (has_pcs_key c) as [[]|er| |]; try (intros D; injection D as <- <-; auto; fail); [|intros D; apply DG in D; exact D].
      destruct (pcs_key_from_tree_root c) as [c1 r1] eqn:Er. apply root_graph in Er as [sks ->].
      destruct r1; try (intros D; injection D as <- <-; auto; fail); [|intros D; apply DG in D; exact D].
      destruct (_ =? _); [intros D; injection D as <- <-; auto|intros D; apply DG in D; exact D]. }
    unfold decryption_key_for in Q. destruct (pcs_key_from_hashes _ _ _ _) as [c1 r1] eqn:Ep. destruct (PG _ _ eq_refl) as (A & B).
    destruct r1 as [k|er| |]; [|injection Q as <- <-; apply ts_same; auto..].
    destruct (c_pcs c1 !! _); injection Q as <- <-; apply ts_same; auto.
  - apply ts_same; reflexivity.
Qed.

(** ** The first operation stays *)
Lemma init_kept c : cgka_reachable horder rorder c ->
  g_ops (c_graph c) !! so_hash (c_init c) = Some (c_init c) /\ so_op (c_init c) = init_add (c_original c).1 (c_original c).2.
Proof.
  intros R. induction R as [id pk h c E|c c' R [IH1 IH2] S].
  - unfold cgka_from_init in E. apply rbind_ok in E as (t & _ & E). injection E as <-. cbn. split; [apply lookup_insert|reflexivity].
  - apply cgka_step_graph in S as (S & O & I). rewrite O, I. split; [|exact IH2]. apply graph_step_mono in S. eapply lookup_weaken; eauto.
Qed.

(** ** The tree is the replayed one *)
Definition canonical (c : cgka) (t : tree) : Prop :=
  exists es g, topsort_graph (c_graph c) horder = Ok es /\ replays rorder (c_original c) (c_init c) es t g.

Lemma rebuild_tree c es c1 : rebuild_cgka rorder c es = Ok c1 -> exists g, replays rorder (c_original c) (c_init c) es (c_tree c1) g.
Proof.
  unfold rebuild_cgka. intros Q. apply rbind_ok in Q as (c2 & E & Q). apply rbind_ok in Q as (b & _ & Q).
  apply (rebuild_from_replays rorder c es c2 HR) in E. destruct b; [|injection Q as <-; eauto].
  destruct (pcs_key_from_tree_root c2) as [c3 r] eqn:Er. apply root_graph in Er as [sks ->].
  apply rbind_ok in Q as (k & _ & Q). apply rbind_ok in Q as (h & _ & Q). injection Q as <-. cbn. eauto.
Qed.
Lemma replay_canonical c c1 : replay_ops_graph horder rorder c = Ok c1 -> canonical c (c_tree c1).
Proof.
  unfold replay_ops_graph. intros Q. apply rbind_ok in Q as (es & E & Q). apply rbind_ok in Q as (c2 & E2 & Q). injection Q as <-.
  apply rebuild_tree in E2 as [g E2]. exists es, g. auto.
Qed.
Lemma heads_not_empty c : cgka_reachable horder rorder c -> g_heads (c_graph c) <> ∅.
Proof. intros R. apply heads_nonempty. eapply cgka_graph_reachable; eauto. Qed.

Definition quiescent_canonical (c : cgka) : Prop :=
  single_root (c_graph c) -> unordered_preds (c_graph c) -> has_single_head (c_graph c) = true -> canonical c (c_tree c).

Lemma maybe_replay_canonical c c1 : cgka_reachable horder rorder c -> quiescent_canonical c ->
  single_root (c_graph c) -> unordered_preds (c_graph c) -> maybe_replay horder rorder c = Ok c1 -> canonical c (c_tree c1).
Proof.
  intros R J SR U. unfold maybe_replay. destruct (should_replay c) eqn:Es; [apply replay_canonical|]. intros Q. injection Q as <-.
  apply J; [exact SR|exact U|]. unfold should_replay in Es. apply andb_false_iff in Es as [Es|Es].
  - apply negb_false_iff, bool_decide_eq_true in Es. exfalso. exact (heads_not_empty c R Es).
  - apply orb_false_iff in Es as [_ Es]. apply negb_false_iff in Es. exact Es.
Qed.

Lemma pred_of_mono g g' p h : g_ops g ⊆ g_ops g' -> pred_of g p h -> pred_of g' p h.
Proof. intros S (o & Eo & Hp). exists o. split; [|exact Hp]. eapply lookup_weaken; eauto. Qed.
Lemma before_mono g g' p h : g_ops g ⊆ g_ops g' -> before g p h -> before g' p h.
Proof.
  intros S B. induction B as [x y P|x y z P _ IH]; [apply tc_once|eapply tc_l; [|exact IH]]; eapply pred_of_mono; eauto.
Qed.
Lemma unordered_mono g g' : g_ops g ⊆ g_ops g' -> unordered_preds g' -> unordered_preds g.
Proof.
  intros S U h o p q Eo Hp Hq B. eapply (U h o p q); [eapply lookup_weaken; eauto|exact Hp|exact Hq|]. eapply before_mono; eauto.
Qed.
Lemma single_root_mono g g' : g_ops g ⊆ g_ops g' -> single_root g' -> single_root g.
Proof. intros S U h h' o o' E E'. eapply U; eapply lookup_weaken; eauto. Qed.

(** An operation following all heads, naming no ordered pair, names exactly the heads. *)
Lemma preds_are_heads g g' op : graph_reachable g -> graph_reachable g' -> g_ops g !! so_hash op = None ->
  g_ops g' = <[so_hash op := op]> (g_ops g) -> unordered_preds g' -> g_heads g ⊆ op_preds (so_op op) -> op_preds (so_op op) = g_heads g.
Proof.
  intros R R' N E U Sub. apply set_eq. intros p. split; [|apply Sub]. intros Hp.
  assert (Eo : g_ops g' !! so_hash op = Some op) by (rewrite E; apply lookup_insert).
  assert (SM : g_ops g ⊆ g_ops g') by (rewrite E; apply insert_subseteq, N).
  assert (Kp : is_Some (g_ops g !! p)).
  { destruct (graph_causal_lemma g' R') as (A & B & _). assert (P : pred_of g' p (so_hash op)) by (exists op; auto).
    destruct (A _ _ P) as [o Ep]. rewrite E in Ep. apply lookup_insert_Some in Ep as [[<- _]|[_ Ep]]; [|eauto].
    exfalso. apply (B (so_hash op)). apply tc_once, P. }
  destruct (some_head_lemma g R p Kp) as (k & Hk & Rk). apply rtc_tc in Rk as [->|Rk]; [exact Hk|]. exfalso.
  eapply (U _ _ p k Eo); [exact Hp|apply Sub, Hk|]. eapply before_mono; eauto.
Qed.

Lemma quiescent_canonical_inv c : cgka_reachable horder rorder c -> quiescent_canonical c.
Proof.
  intros R. induction R as [id pk h c E|c c' R IH S].
  - intros _ _ _. unfold cgka_from_init in E. apply rbind_ok in E as (t & Et & E). injection E as <-. cbn [c_tree c_graph c_original c_init].
    set (op := SignedOp h (init_add id pk)). set (g := add_local_op graph_new op).
    assert (Rg : graph_reachable g) by (apply gr_first; reflexivity).
    assert (SR : single_root g).
    { intros a a' o o' Ea Ea' _ _. cbn in Ea, Ea'. apply lookup_insert_Some in Ea as [[<- _]|[_ Ea]]; [|rewrite lookup_empty in Ea; discriminate].
      apply lookup_insert_Some in Ea' as [[<- _]|[_ Ea']]; [reflexivity|rewrite lookup_empty in Ea'; discriminate]. }
    assert (exists c1, cgka_from_init id pk op = Ok c1 /\ c_tree c1 = t /\ c_graph c1 = g) as (c1 & Ec1 & Tc1 & Gc1).
    { unfold cgka_from_init. rewrite Et. cbn [rbind]. eexists. split; [reflexivity|]. auto. }
    destruct (replay_same_lemma g g horder horder Rg Rg eq_refl SR HH HH) as (es & Et' & _ & [Gc Go _ Gn _] & Hes).
    exists es, g. split; [exact Et'|]. exists c1. exists c1. split; [exact Ec1|]. split; [|auto].
    assert (Hall : forall o, o ∈ concat es -> o = op).
    { intros o Ho. apply Hes in Ho. cbn in Ho. apply lookup_insert_Some in Ho as [[_ Q]|[_ Q]]; [auto|rewrite lookup_empty in Q; discriminate]. }
    assert (AP : forall es, (forall o, o ∈ concat es -> o = op) -> NoDup (concat es) -> (forall e, e ∈ es -> e <> []) -> apply_epochs rorder c1 es = Ok c1).
    { clear -Gc1 Ec1. intros es. induction es as [|e es IH]; intros A N Ne; cbn [apply_epochs]; [reflexivity|]. cbn [concat] in A, N.
      destruct e as [|o e]; [exfalso; eapply Ne; [left|reflexivity]|].
      assert (o = op) as -> by (apply A; left).
      destruct e as [|o' e].
      - cbn [apply_epoch]. rewrite apply_operation_eq, Gc1. replace (contains_op g (so_hash op)) with true.
        + cbn [rbind]. apply IH; [intros o Ho; apply A, elem_of_app; auto|apply NoDup_app in N; tauto|intros e He; apply Ne; right; exact He].
        + symmetry. unfold contains_op. apply bool_decide_eq_true. cbn. rewrite lookup_insert. eauto.
      - exfalso. assert (o' = op) by (apply A; right; left). subst o'. cbn in N. apply NoDup_cons in N as [N _]. apply N. left. }
    apply AP; assumption.
  - assert (Rg : graph_reachable (c_graph c)) by (eapply cgka_graph_reachable; eauto).
    assert (Rg' : graph_reachable (c_graph c')) by (eapply cgka_graph_reachable; [exact HH|eapply cr_step; eauto]).
    pose proof (cgka_step_graph _ _ _ _ S) as (GS & O & I). pose proof (graph_step_mono _ _ _ GS) as SM.
    pose proof (init_kept c R) as [Ki _].
    apply cgka_step_tree in S. intros SR U H1.
    pose proof (single_root_mono _ _ SM SR) as SR0. pose proof (unordered_mono _ _ SM U) as U0.
    destruct S as [T G|c1 Em T G|c1 op Em F Sub A Eg|op F NSub Eg].
    + unfold canonical. rewrite G, O, I, T. rewrite G in H1. apply IH; assumption.
    + unfold canonical. rewrite G, O, I, T. exact (maybe_replay_canonical c c1 R IH SR0 U0 Em).
    + destruct (maybe_replay_canonical c c1 R IH SR0 U0 Em) as (es & g1 & Et & Re).
      apply contains_op_false in F.
      assert (X : extends (c_graph c) (c_graph c') op).
      { constructor; [exact Eg|exact F|]. eapply preds_are_heads; eauto. }
      pose proof (reachable_ginv _ Rg') as V'. pose proof (reachable_ginv _ Rg) as V.
      assert (Ht : topsort_for_heads (c_graph c') [so_hash op] = Ok (es ++ [[op]])).
      { eapply (topsort_extend (c_graph c)); [exact Rg|exact V'|exact SR0|exact X|apply (HH (g_heads (c_graph c)))|exact Et]. }
      assert (Hh : horder (g_heads (c_graph c')) = [so_hash op]).
      { apply Permutation_singleton_r. rewrite (HH _).
        assert (g_heads (c_graph c') = {[ so_hash op ]}) as ->; [|rewrite elements_singleton; reflexivity].
        apply set_eq. intros x. rewrite elem_of_singleton, (gi_heads _ V'). split.
        - intros [[o Eo] NP]. rewrite Eg in Eo. apply lookup_insert_Some in Eo as [[<- _]|[_ Eo]]; [reflexivity|]. exfalso.
          destruct (some_head_lemma _ Rg x) as (k & Hk & Rk); [eauto|]. destruct Rk as [x|x y k Pxy _].
          + apply (NP (so_hash op)). exists op. rewrite Eg. split; [apply lookup_insert|]. apply Sub, Hk.
          + apply (NP y). eapply pred_of_mono; eauto.
        - intros ->. split; [rewrite Eg, lookup_insert; eauto|]. intros k (o & Eo & Hp). rewrite Eg in Eo.
          apply lookup_insert_Some in Eo as [[<- <-]|[_ Eo]].
          + rewrite (ex_preds _ _ _ X) in Hp. apply (gi_heads _ V) in Hp as [[? Q] _]. congruence.
          + assert (P : pred_of (c_graph c) (so_hash op) k) by (exists o; auto). apply (gi_closed _ V) in P as [? Q]. congruence. }
      unfold canonical. exists (es ++ [[op]]). eexists. split; [unfold topsort_graph; rewrite Hh; exact Ht|].
      rewrite O, I. eapply replays_snoc; [exact Re| |exact A].
      destruct (contains_op g1 (so_hash op)) eqn:K; [exfalso|reflexivity].
      destruct Re as (c0 & c2 & E0 & E1 & _ & <-). apply (apply_epochs_known _ _ _ _ _ E1) in K as [K|K].
      * unfold cgka_from_init in E0. apply rbind_ok in E0 as (t0 & _ & E0). injection E0 as <-. unfold contains_op in K. apply bool_decide_eq_true in K as [o Q]. cbn in Q.
        apply lookup_insert_Some in Q as [[Q _]|[_ Q]]; [|rewrite lookup_empty in Q; discriminate]. rewrite Q, F in Ki. discriminate.
      * apply elem_of_list_fmap in K as (o & Q & Ho).
        destruct (replay_same_lemma _ _ horder horder Rg Rg eq_refl SR0 HH HH) as (es' & Et1 & _ & _ & Hes).
        rewrite Et in Et1. injection Et1 as <-. apply Hes in Ho. rewrite <- Q, F in Ho. discriminate.
    + exfalso. pose proof (reachable_ginv _ Rg') as V'. pose proof (reachable_ginv _ Rg) as V. apply contains_op_false in F.
      assert (exists k, k ∈ g_heads (c_graph c) /\ k ∉ op_preds (so_op op)) as (k & Hk & Nk).
      { destruct (set_choose_or_empty (g_heads (c_graph c) ∖ op_preds (so_op op))) as [[k Hk]|Hk].
        - exists k. set_solver.
        - exfalso. apply NSub. intros x Hx. destruct (decide (x ∈ op_preds (so_op op))) as [|Nx]; [assumption|]. exfalso.
          apply (not_elem_of_empty (C := gset digest) x), (Hk x), elem_of_difference. auto. }
      assert (Kk := Hk). apply (gi_heads _ V) in Kk as [Kk NP].
      assert (A1 : k ∈ g_heads (c_graph c')).
      { apply (gi_heads _ V'). split; [rewrite Eg; apply lookup_insert_is_Some; destruct (decide (so_hash op = k)); auto|].
        intros y (o & Eo & Hp). rewrite Eg in Eo. apply lookup_insert_Some in Eo as [[_ <-]|[_ Eo]]; [contradiction|]. apply (NP y). exists o. auto. }
      assert (A2 : so_hash op ∈ g_heads (c_graph c')).
      { apply (gi_heads _ V'). split; [rewrite Eg, lookup_insert; eauto|]. intros y (o & Eo & Hp). rewrite Eg in Eo.
        apply lookup_insert_Some in Eo as [[<- <-]|[_ Eo]].
        - destruct (graph_causal_lemma _ Rg') as (_ & B & _). apply (B (so_hash op)), tc_once. exists op. split; [rewrite Eg; apply lookup_insert|exact Hp].
        - assert (P : pred_of (c_graph c) (so_hash op) y) by (exists o; auto). apply (gi_closed _ V) in P as [? Q]. congruence. }
      unfold has_single_head in H1. apply Nat.eqb_eq in H1. apply size_1_elem_of in H1 as [x Hx].
      assert (k = x) by set_solver. assert (so_hash op = x) by set_solver. subst. destruct Kk as [? Q]. congruence.
Qed.
End converge.

Lemma quiescent_agree_lemma horder rorder horder' rorder' c c' :
  some_order horder -> some_order rorder -> some_order horder' -> some_order rorder' ->
  cgka_reachable horder rorder c -> cgka_reachable horder' rorder' c' ->
  g_ops (c_graph c) = g_ops (c_graph c') -> single_root (c_graph c) -> unordered_preds (c_graph c) ->
  has_single_head (c_graph c) = true -> c_tree c = c_tree c'.
Proof.
  intros HH HR HH' HR' R R' E SR U H1.
  pose proof (cgka_graph_reachable horder rorder c HH R) as Rg.
  pose proof (cgka_graph_reachable horder' rorder' c' HH' R') as Rg'.
  destruct (same_ops_same_graph_lemma _ _ Rg Rg' E) as [EH _].
  assert (SR' : single_root (c_graph c')) by (eapply single_root_mono; [|exact SR]; rewrite E; reflexivity).
  assert (U' : unordered_preds (c_graph c')) by (eapply unordered_mono; [|exact U]; rewrite E; reflexivity).
  assert (H1' : has_single_head (c_graph c') = true) by (unfold has_single_head in *; rewrite <- EH; exact H1).
  destruct (quiescent_canonical_inv horder rorder HH HR c R SR U H1) as (es & g & Et & Re).
  destruct (quiescent_canonical_inv horder' rorder' HH' HR' c' R' SR' U' H1') as (es' & g' & Et' & Re').
  destruct (replay_same_lemma _ _ horder horder' Rg Rg' E SR HH HH') as (es0 & E1 & E2 & _).
  rewrite Et in E1. injection E1 as ->. rewrite Et' in E2. injection E2 as ->.
  destruct (init_kept horder rorder c R) as [Ki Oi]. destruct (init_kept horder' rorder' c' R') as [Ki' Oi'].
  assert (Eh : so_hash (c_init c) = so_hash (c_init c')).
  { eapply (SR _ _ _ _ Ki); [rewrite E; exact Ki'|rewrite Oi; reflexivity|rewrite Oi'; reflexivity]. }
  assert (Ei : c_init c = c_init c') by (rewrite E, Eh, Ki' in Ki; congruence).
  assert (Eo : c_original c = c_original c').
  { rewrite Ei, Oi' in Oi. unfold init_add in Oi. injection Oi as A B. destruct (c_original c), (c_original c'); cbn in *; congruence. }
  rewrite Ei, Eo in Re. destruct (replays_det _ _ _ _ _ _ _ _ _ HR HR' Re Re') as [A _]. exact A.
Qed.
