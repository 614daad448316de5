(** Key agreement in a network of replicas that follow the protocol. *)
From Coq Require Import Arith Lia.
From stdpp Require Import base list gmap relations.
From Verif Require Import ResModel KeysModel TreeMathModel TreeModel OpsModel OpsSpec OpsInv OpsProofs OpsEpochs OpsPropsProofs OpsExtend
  CgkaModel CgkaSpec CgkaProofs CgkaReplay CgkaConverge CgkaSound NetSpec NetProofs.

(** ** Replay as an induction *)
Lemma apply_operations_ind (P : cgka -> Prop) es : forall c c1,
  (forall c op c', op ∈ es -> P c -> apply_operation c op = Ok c' -> P c') ->
  apply_operations c es = Ok c1 -> P c -> P c1.
Proof.
  induction es as [|op es IH]; intros c c1 H Q Pc; cbn [apply_operations] in Q; [injection Q as <-; exact Pc|].
  apply rbind_ok in Q as (c2 & E & Q). eapply IH; [|exact Q|].
  - intros c3 op' c' Hop. apply H. right. exact Hop.
  - eapply H; [left|exact Pc|exact E].
Qed.
Lemma apply_epochs_ind ro (P : cgka -> Prop) es : forall c c1,
  (forall c op c', op ∈ concat es -> P c -> apply_operation c op = Ok c' -> P c') -> (forall c t, P c -> P (set_tree c t)) ->
  apply_epochs ro c es = Ok c1 -> P c -> P c1.
Proof.
  induction es as [|e es IH]; intros c c1 H T Q Pc; cbn [apply_epochs] in Q; [injection Q as <-; exact Pc|].
  apply rbind_ok in Q as (c2 & E & Q). cbn [concat] in H.
  assert (He : forall c op c', op ∈ e -> P c -> apply_operation c op = Ok c' -> P c').
  { intros c3 op c' Hop. apply H. apply elem_of_app. auto. }
  eapply IH; [intros c3 op c' Hop; apply H; apply elem_of_app; auto|exact T|exact Q|].
  assert (G : (if forallb (fun op => is_update (so_op op)) e then apply_operations c e
      else let! c := apply_operations c e in
           let! t := sort_leaves_and_blank_paths (c_tree c) (epoch_added e) (ro (epoch_removed e)) in
           Ok (set_tree c t)) = Ok c2 -> P c2).
  { destruct (forallb _ e); [intros E1; eapply apply_operations_ind; eauto|]. intros E1. apply rbind_ok in E1 as (c3 & E2 & E1).
    apply rbind_ok in E1 as (t & Et & E1). injection E1 as <-. apply T. eapply apply_operations_ind; eauto. }
  destruct e as [|op [|op' e]]; [exact (G E)| |exact (G E)].
  cbn [apply_epoch] in E. eapply He; [left|exact Pc|exact E].
Qed.

Lemma contains_some g x : contains_op g x = true <-> is_Some (g_ops g !! x).
Proof. unfold contains_op. apply bool_decide_eq_true. Qed.

(** What replay leaves alone. *)
Lemma rebuild_keeps ro c es c1 : rebuild_from ro c es = Ok c1 ->
  c_sks c1 = c_sks c /\ c_pcs c1 = ∅ /\ c_pcs_ops c1 = ∅ /\ c_owner c1 = c_owner c /\ c_pending c1 = false.
Proof.
  unfold rebuild_from. intros Q. apply rbind_ok in Q as (c0 & E & Q).
  eapply (apply_epochs_ind ro (fun c1 => c_sks c1 = c_sks c /\ c_pcs c1 = ∅ /\ c_pcs_ops c1 = ∅ /\ c_owner c1 = c_owner c /\ c_pending c1 = false)); [| |exact Q|].
  - intros c2 op c' _ H Eo. apply apply_operation_graph in Eo as [[-> _]|[_ [t ->]]]; exact H.
  - intros c2 t H. exact H.
  - unfold cgka_from_init in E. apply rbind_ok in E as (t & _ & E). injection E as <-. repeat split.
Qed.

(** All operations given are added, and an operation nobody names stays a head. *)
Lemma replayed_heads ro orig init es t g x : replays ro orig init es t g -> x ∈ map so_hash (concat es) ->
  (forall o, o ∈ concat es -> x ∉ op_preds (so_op o)) -> x ∈ g_heads g.
Proof.
  intros (c0 & c1 & E0 & E1 & _ & <-) Hx NP.
  assert (I0 : contains_op (c_graph c0) x = true -> x ∈ g_heads (c_graph c0)).
  { unfold cgka_from_init in E0. apply rbind_ok in E0 as (t0 & _ & E0). injection E0 as <-. cbn [c_graph]. rewrite contains_some. cbn.
    intros [o Q]. apply lookup_insert_Some in Q as [[<- _]|[_ Q]]; [|rewrite lookup_empty in Q; discriminate]. clear. set_solver. }
  assert (I1 : contains_op (c_graph c1) x = true -> x ∈ g_heads (c_graph c1)).
  { eapply (apply_epochs_ind ro (fun c => contains_op (c_graph c) x = true -> x ∈ g_heads (c_graph c))); [| |exact E1|exact I0].
    - intros c op c' Hop H Q. apply apply_operation_graph in Q as [[-> _]|[N [t' ->]]]; [exact H|]. cbn [c_graph set_graph set_tree].
      rewrite !contains_some in *. intros [o Q]. cbn in Q |- *. apply elem_of_union. apply lookup_insert_Some in Q as [[<- _]|[_ Q]].
      + right. apply elem_of_singleton. reflexivity.
      + left. apply elem_of_difference. split; [apply H; eauto|apply NP, Hop].
    - intros c t' H. exact H. }
  apply I1. clear I0 I1 NP.
  revert c0 E0 E1. cut (forall es c0 c1, apply_epochs ro c0 es = Ok c1 -> x ∈ map so_hash (concat es) \/ contains_op (c_graph c0) x = true -> contains_op (c_graph c1) x = true).
  { intros G c0 _ E1. eapply G; [exact E1|auto]. }
  clear. 
  assert (Mono : forall c op c', apply_operation c op = Ok c' -> contains_op (c_graph c) x = true -> contains_op (c_graph c') x = true).
  { intros c op c' Q K. apply apply_operation_graph in Q as [[-> _]|[N [t' ->]]]; [exact K|]. cbn [c_graph set_graph set_tree].
    rewrite !contains_some in *. cbn. apply lookup_insert_is_Some'. auto. }
  assert (Self : forall c op c', apply_operation c op = Ok c' -> contains_op (c_graph c') (so_hash op) = true).
  { intros c op c' Q. apply apply_operation_graph in Q as [[-> K]|[N [t' ->]]]; [exact K|]. cbn [c_graph set_graph set_tree].
    rewrite contains_some. cbn. rewrite lookup_insert. eauto. }
  assert (Ops : forall e c c', apply_operations c e = Ok c' -> x ∈ map so_hash e \/ contains_op (c_graph c) x = true -> contains_op (c_graph c') x = true).
  { induction e as [|op e IH]; intros c c' Q H; cbn [apply_operations] in Q.
    - injection Q as <-. destruct H as [H|H]; [apply elem_of_nil in H as []|exact H].
    - apply rbind_ok in Q as (c2 & E & Q). apply (IH _ _ Q). cbn [map] in H. destruct H as [H|H]; [|eauto].
      apply elem_of_cons in H as [->|H]; eauto. }
  induction es as [|e es IH]; intros c0 c1 Q H; cbn [apply_epochs concat] in *.
  - injection Q as <-. destruct H as [H|H]; [apply elem_of_nil in H as []|exact H].
  - apply rbind_ok in Q as (c2 & E & Q). apply (IH _ _ Q). rewrite map_app, elem_of_app in H.
    assert (G : x ∈ map so_hash e \/ contains_op (c_graph c0) x = true -> contains_op (c_graph c2) x = true).
    { intros H'. assert (G : (if forallb (fun op => is_update (so_op op)) e then apply_operations c0 e
          else let! c := apply_operations c0 e in
               let! t := sort_leaves_and_blank_paths (c_tree c) (epoch_added e) (ro (epoch_removed e)) in
               Ok (set_tree c t)) = Ok c2 -> contains_op (c_graph c2) x = true).
      { destruct (forallb _ e); [intros E1; eapply Ops; eauto|]. intros E1. apply rbind_ok in E1 as (c3 & E2 & E1).
        apply rbind_ok in E1 as (t & Et & E1). injection E1 as <-. cbn. eapply Ops; eauto. }
      destruct e as [|op [|op' e]]; [exact (G E)| |exact (G E)]. cbn [apply_epoch] in E. destruct H' as [H'|H']; [|eauto].
      apply elem_of_list_singleton in H' as ->. eauto. }
    destruct H as [[H|H]|H]; auto.
Qed.

(** ** A pending replay means several heads *)
Lemma concurrent_heads g g' op : graph_reachable g -> graph_reachable g' -> g_ops g !! so_hash op = None ->
  ~ g_heads g ⊆ op_preds (so_op op) -> g_ops g' = <[so_hash op := op]> (g_ops g) -> has_single_head g' = false.
Proof.
  intros Rg Rg' F NSub Eg. pose proof (reachable_ginv _ Rg') as V'. pose proof (reachable_ginv _ Rg) as V.
  destruct (has_single_head g') eqn:H1; [exfalso|reflexivity].
  assert (exists k, k ∈ g_heads g /\ k ∉ op_preds (so_op op)) as (k & Hk & Nk).
  { destruct (set_choose_or_empty (g_heads g ∖ op_preds (so_op op))) as [[k Hk]|Hk].
    - exists k. apply elem_of_difference, Hk.
    - exfalso. apply NSub. intros x Hx. destruct (decide (x ∈ op_preds (so_op op))) as [|Nx]; [assumption|]. exfalso.
      apply (not_elem_of_empty (C := gset digest) x), (Hk x), elem_of_difference. auto. }
  assert (Kk := Hk). apply (gi_heads _ V) in Kk as [Kk NP].
  assert (A1 : k ∈ g_heads g').
  { apply (gi_heads _ V'). split; [rewrite Eg; apply lookup_insert_is_Some; destruct (decide (so_hash op = k)); auto|].
    intros y (o & Eo & Hp). rewrite Eg in Eo. apply lookup_insert_Some in Eo as [[_ <-]|[_ Eo]]; [contradiction|]. apply (NP y). exists o. auto. }
  assert (A2 : so_hash op ∈ g_heads g').
  { apply (gi_heads _ V'). split; [rewrite Eg, lookup_insert; eauto|]. intros y (o & Eo & Hp). rewrite Eg in Eo.
    apply lookup_insert_Some in Eo as [[<- <-]|[_ Eo]].
    - destruct (graph_causal_lemma _ Rg') as (_ & B & _). apply (B (so_hash op)), tc_once. exists op. split; [rewrite Eg; apply lookup_insert|exact Hp].
    - assert (P : pred_of g (so_hash op) y) by (exists o; auto). apply (gi_closed _ V) in P as [? Q]. congruence. }
  unfold has_single_head in H1. apply Nat.eqb_eq in H1. apply size_1_elem_of in H1 as [x Hx].
  rewrite Hx in A1, A2. apply elem_of_singleton in A1, A2. destruct Kk as [? Q]. congruence.
Qed.

Section one.
Context (horder : gset digest -> list digest).
Context (rorder : gset (member_id * nat) -> list (member_id * nat)).
Context (HH : some_order horder) (HR : some_order rorder).

(** A step leaves the pending mark and the graph alone, clears the mark, or takes in a
    concurrent operation. *)
Inductive pending_step (c c' : cgka) : Prop :=
| ps_same : c_pending c' = c_pending c -> c_graph c' = c_graph c -> pending_step c c'
| ps_clear : c_pending c' = false -> pending_step c c'
| ps_concurrent op : contains_op (c_graph c) (so_hash op) = false -> ~ g_heads (c_graph c) ⊆ op_preds (so_op op) ->
    g_ops (c_graph c') = <[so_hash op := op]> (g_ops (c_graph c)) -> pending_step c c'.

Lemma maybe_replay_pending c c1 : g_heads (c_graph c) <> ∅ -> maybe_replay horder rorder c = Ok c1 -> c_pending c1 = false.
Proof.
  intros N. unfold maybe_replay, should_replay. rewrite bool_decide_eq_false_2 by exact N. cbn.
  destruct (c_pending c) eqn:P; cbn; [intros Q; apply replay_graph in Q; tauto|].
  destruct (negb _); intros Q; [apply replay_graph in Q; tauto|]. injection Q as <-. exact P.
Qed.

Lemma update_pending c sk h rng c' r : g_heads (c_graph c) <> ∅ -> cgka_update horder rorder c sk h rng = (c', r) -> pending_step c c'.
Proof.
  intros N. unfold cgka_update. destruct (maybe_replay horder rorder c) as [c1|e| |] eqn:Em; intros Q.
  2-4: injection Q as <- <-; apply ps_same; reflexivity.
  apply (maybe_replay_pending _ _ N) in Em. apply ps_clear.
  destruct (update_identity _ _ _) as [[[id pk] sk']|e| |]; [|injection Q as <- <-; exact Em..].
  destruct (encrypt_path _ _ _ _ _) as [[[[[t k] path] sks] rng']|e| |]; injection Q as <- <-; exact Em.
Qed.

Lemma derive_pending c1 c2 h r : derive_pcs_key_for_op rorder c1 h = (c2, r) -> c_pending c2 = c_pending c1.
Proof.
  intros D. unfold derive_pcs_key_for_op in D. destruct (negb _); [injection D as <- <-; auto|].
  destruct (topsort_for_heads _ _); [|injection D as <- <-; auto..].
  unfold rebuild_pcs_key in D. destruct (rbind _ _); [|injection D as <- <-; auto..].
  destruct (last_first _); injection D as <- <-; auto.
Qed.

Lemma from_hashes_pending c kh h c' r : pcs_key_from_hashes rorder c kh h = (c', r) -> c_pending c' = c_pending c.
Proof.
  unfold pcs_key_from_hashes. destruct (c_pcs c !! kh); [intros Q; injection Q as <- <-; reflexivity|].
  destruct (has_pcs_key c) as [[]|er| |]; [|apply derive_pending|intros Q; injection Q as <- <-; reflexivity..].
  destruct (pcs_key_from_tree_root c) as [c1 r1] eqn:Er. apply root_graph in Er as [sks ->].
  destruct r1 as [k|er| |]; [|intros Q; apply derive_pending in Q; exact Q|intros Q; injection Q as <- <-; reflexivity..].
  destruct (_ =? _); intros Q; [injection Q as <- <-; reflexivity|apply derive_pending in Q; exact Q].
Qed.

Lemma cgka_step_pending c c' : g_heads (c_graph c) <> ∅ -> cgka_step horder rorder c c' -> pending_step c c'.
Proof.
  intros N S. destruct S as [id pk h r F Q|id h r F Q|sk h rng r F Q|op r Q|ref content preds sk h rng r F Q|e r Q|id sks ->].
  - unfold cgka_add in Q. destruct (contains_id _ _); [injection Q as <- <-; apply ps_same; reflexivity|].
    destruct (maybe_replay horder rorder c) as [c1|e| |] eqn:Em; [|injection Q as <- <-; apply ps_same; reflexivity..].
    apply (maybe_replay_pending _ _ N) in Em. apply ps_clear. destruct (push_leaf _ _ _) as [[t i]|e| |]; injection Q as <- <-; exact Em.
  - unfold cgka_remove in Q. destruct (negb _); [injection Q as <- <-; apply ps_same; reflexivity|].
    destruct (maybe_replay horder rorder c) as [c1|e| |] eqn:Em; [|injection Q as <- <-; apply ps_same; reflexivity..].
    apply (maybe_replay_pending _ _ N) in Em. apply ps_clear. destruct (_ =? 1); [injection Q as <- <-; exact Em|].
    destruct (remove_id _ _) as [[t [i ks]]|e| |]; injection Q as <- <-; exact Em.
  - eapply update_pending; eauto.
  - unfold merge_concurrent_operation in Q. destruct (contains_op _ _) eqn:K; [injection Q as <- <-; apply ps_same; reflexivity|].
    destruct (negb (contains_predecessors _ _)); [injection Q as <- <-; apply ps_same; reflexivity|].
    destruct (heads_contained_in _ _) eqn:Hc; cbn [negb] in Q.
    + destruct (maybe_replay horder rorder c) as [c1|e| |] eqn:Em; [|injection Q as <- <-; apply ps_same; reflexivity..].
      apply (maybe_replay_pending _ _ N) in Em. apply ps_clear. destruct (apply_operation c1 op) as [c2|e| |] eqn:Ea; injection Q as <- <-; try exact Em.
      apply apply_operation_graph in Ea as [[-> _]|[_ [t ->]]]; exact Em.
    + apply bool_decide_eq_false in Hc. destruct (c_pending c) eqn:P.
      { injection Q as <- <-. eapply ps_concurrent; [exact K|exact Hc|reflexivity]. }
      destruct (is_update _).
      * destruct (apply_operation c op) as [c2|e| |] eqn:Ea; injection Q as <- <-; try (apply ps_same; reflexivity).
        apply apply_operation_graph in Ea as [[_ Ea]|[_ [t ->]]]; [congruence|]. eapply ps_concurrent; [exact K|exact Hc|reflexivity].
      * injection Q as <- <-. eapply ps_concurrent; [exact K|exact Hc|reflexivity].
  - unfold new_app_secret_for in Q. destruct (has_pcs_key c) as [[]|e| |].
    3-5: injection Q as <- <-; apply ps_same; reflexivity.
    + destruct (pcs_key_from_tree_root c) as [c1 r1] eqn:Er. apply root_graph in Er as [sks ->].
      destruct r1 as [k|e| |]; [|injection Q as <- <-; apply ps_same; reflexivity..].
      destruct (c_pcs _ !! _); [|destruct (horder _)]; destruct (c_pcs_ops _ !! _); injection Q as <- <-; apply ps_same; reflexivity.
    + destruct (cgka_update _ _ _ _ _ _) as [c1 r1] eqn:Eu. apply (update_pending _ _ _ _ _ _ N) in Eu.
      destruct r1 as [[[k op] rng']|e| |]; [|injection Q as <- <-; exact Eu..].
      destruct (c_pcs_ops _ !! _); injection Q as <- <-; destruct Eu as [A B|A|op' A B C]; [apply ps_same|apply ps_clear|eapply ps_concurrent|apply ps_same|apply ps_clear|eapply ps_concurrent]; eauto.
  - pose proof (decryption_graph _ _ _ _ _ Q) as [G _]. apply ps_same; [|exact G].
    unfold decryption_key_for in Q. destruct (pcs_key_from_hashes _ _ _ _) as [c1 r1] eqn:Ep. apply from_hashes_pending in Ep. rewrite <- Ep.
    destruct r1 as [k|er| |]; [destruct (c_pcs c1 !! _)|..]; injection Q as <- <-; reflexivity.
  - apply ps_same; reflexivity.
Qed.

Lemma pending_heads c : cgka_reachable horder rorder c -> c_pending c = true -> has_single_head (c_graph c) = false.
Proof.
  intros R. induction R as [id pk h c E|c c' R IH S].
  - unfold cgka_from_init in E. apply rbind_ok in E as (t & _ & E). injection E as <-. discriminate.
  - assert (Rg : graph_reachable (c_graph c)) by (eapply cgka_graph_reachable; eauto).
    assert (Rg' : graph_reachable (c_graph c')) by (eapply cgka_graph_reachable; [exact HH|eapply cr_step; eauto]).
    intros P. apply cgka_step_pending in S as [A B|A|op A B C].
    + rewrite B. apply IH. congruence.
    + congruence.
    + apply contains_op_false in A. eapply (concurrent_heads (c_graph c)); eauto.
    + apply heads_nonempty, Rg.
Qed.
Lemma replay_needs_heads c : cgka_reachable horder rorder c -> should_replay c = true -> has_single_head (c_graph c) = false.
Proof.
  intros R S. unfold should_replay in S. apply andb_true_iff in S as [_ S]. apply orb_true_iff in S as [S|S]; [apply pending_heads; assumption|].
  apply negb_true_iff in S. exact S.
Qed.

(** So a replay adds no epoch keys. *)
Lemma maybe_replay_keys c c1 : cgka_reachable horder rorder c -> single_root (c_graph c) -> maybe_replay horder rorder c = Ok c1 ->
  c_sks c1 = c_sks c /\ c_pcs c1 = c_pcs c /\ c_pcs_ops c1 = c_pcs_ops c.
Proof.
  intros R SR. unfold maybe_replay. destruct (should_replay c) eqn:S; [|intros Q; injection Q as <-; auto].
  apply (replay_needs_heads _ R) in S. assert (Rg : graph_reachable (c_graph c)) by (eapply cgka_graph_reachable; eauto).
  unfold replay_ops_graph, rebuild_cgka. intros Q. apply rbind_ok in Q as (es & Et & Q). apply rbind_ok in Q as (c2 & E2 & Q). injection Q as <-.
  apply rbind_ok in E2 as (c3 & E3 & E2). apply rbind_ok in E2 as (b & Eb & E2).
  pose proof (rebuild_from_replays _ _ _ _ HR E3) as Re. apply rebuild_keeps in E3 as (A & B & C & D & _).
  assert (b = false) as ->.
  { unfold has_pcs_key in Eb. apply rbind_ok in Eb as (b' & _ & Eb). injection Eb as <-.
    assert (has_single_head (c_graph c3) = false) as ->; [|destruct b'; reflexivity].
    destruct (replay_same_lemma _ _ horder horder Rg Rg eq_refl SR HH HH) as (es' & Et1 & _ & _ & Hes). rewrite Et in Et1. injection Et1 as <-.
    assert (Sub : g_heads (c_graph c) ⊆ g_heads (c_graph c3)).
    { intros x Hx. pose proof (reachable_ginv _ Rg) as V. apply (gi_heads _ V) in Hx as [[o Eo] NP].
      pose proof (gi_hash _ V _ _ Eo) as Eh. eapply replayed_heads; [exact Re| |].
      - apply elem_of_list_fmap. exists o. split; [auto|]. apply Hes. rewrite Eh. exact Eo.
      - intros o' Ho' Hp. apply Hes in Ho'. eapply NP. exists o'. eauto. }
    apply Nat.eqb_neq. intros Sz. apply Nat.eqb_neq in S. apply S.
    pose proof (subseteq_size _ _ Sub) as Le. pose proof (heads_nonempty _ Rg) as NE.
    assert (size (g_heads (c_graph c)) <> 0) by (intros Z; apply size_empty_inv in Z; apply NE, leibniz_equiv, Z). lia. }
  injection E2 as <-. cbn. rewrite A, B, C. rewrite !(left_id_L ∅ (∪)). split; [|auto]. unfold sk_extend. apply union_absorb. reflexivity.
Qed.
End one.
