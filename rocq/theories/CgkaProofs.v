(** Causal delivery and the graph of a replica. *)
From Coq Require Import Arith Lia.
From stdpp Require Import base list gmap relations.
From Verif Require Import ResModel KeysModel TreeModel OpsModel OpsSpec OpsInv CgkaModel CgkaSpec.

Ltac res_case E := match goal with |- context [match ?x with _ => _ end] => destruct x eqn:E end.

Lemma rbind_ok {A B} (x : res A) (k : A -> res B) y : rbind x k = Ok y -> exists a, x = Ok a /\ k a = Ok y.
Proof. destruct x; cbn; [eauto|discriminate..]. Qed.

Lemma apply_operation_graph c op c' : apply_operation c op = Ok c' ->
  c' = c /\ contains_op (c_graph c) (so_hash op) = true \/
  contains_op (c_graph c) (so_hash op) = false /\
  exists t, c' = set_graph (set_tree c t) (add_op (c_graph c) op (op_preds (so_op op))).
Proof.
  unfold apply_operation. destruct (contains_op _ _) eqn:E; [intros Q; injection Q as <-; auto|].
  intros Q. apply rbind_ok in Q as (t & _ & Q). injection Q as <-. eauto.
Qed.

Section proofs.
Context (horder : gset digest -> list digest).
Context (rorder : gset (member_id * nat) -> list (member_id * nat)).

Lemma replay_graph c c' : replay_ops_graph horder rorder c = Ok c' ->
  c_graph c' = c_graph c /\ c_pending c' = false /\ c_original c' = c_original c /\ c_init c' = c_init c /\ c_owner c' = c_owner c.
Proof.
  unfold replay_ops_graph. intros Q. apply rbind_ok in Q as (epochs & _ & Q). apply rbind_ok in Q as (c1 & _ & Q).
  injection Q as <-. repeat split.
Qed.
Lemma maybe_replay_graph c c' : maybe_replay horder rorder c = Ok c' ->
  c_graph c' = c_graph c /\ c_original c' = c_original c /\ c_init c' = c_init c /\ c_owner c' = c_owner c.
Proof.
  unfold maybe_replay. destruct (should_replay c); [intros Q; apply replay_graph in Q; tauto|]. intros Q; injection Q as <-. auto.
Qed.

(** What a step does to the graph: nothing, a local operation, or a received one. *)
Inductive graph_step (g g' : graph) : Prop :=
| gs_same : g' = g -> graph_step g g'
| gs_local op : contains_op g (so_hash op) = false -> op_preds (so_op op) = list_to_set (horder (g_heads g)) ->
    op_add_preds (so_op op) = (if is_add (so_op op) then horder (g_add_heads g) else []) ->
    g' = add_local_op g op -> graph_step g g'
| gs_remote op : contains_op g (so_hash op) = false -> contains_predecessors g (op_preds (so_op op)) = true ->
    g' = add_op g op (op_preds (so_op op)) -> graph_step g g'.

Lemma root_graph c c' r : pcs_key_from_tree_root c = (c', r) -> exists sks, c' = set_sks c sks.
Proof.
  unfold pcs_key_from_tree_root. destruct (decrypt_tree_secret _ _ _) as [sks [k|e| |]]; intros Q.
  all: try (injection Q as <- _; eauto; fail).
  destruct (negb _ && _); [|injection Q as <- _; eauto]. destruct (decrypt_tree_secret _ public_id _) as [sks' r'].
  injection Q as <- _; eauto.
Qed.

Lemma merge_step c op c' r : merge_concurrent_operation horder rorder c op = (c', r) ->
  c_original c' = c_original c /\ c_init c' = c_init c /\ c_owner c' = c_owner c /\
  ((contains_op (c_graph c) (so_hash op) = true /\ c' = c /\ r = Ok false) \/
   (contains_op (c_graph c) (so_hash op) = false /\ contains_predecessors (c_graph c) (op_preds (so_op op)) = false /\
      c' = c /\ r = Err EOutOfOrderOperation) \/
   (contains_op (c_graph c) (so_hash op) = false /\ contains_predecessors (c_graph c) (op_preds (so_op op)) = true /\
      ((r = Ok true /\ c_graph c' = add_op (c_graph c) op (op_preds (so_op op))) \/
       ((forall b, r <> Ok b) /\ c_graph c' = c_graph c)))).
Proof.
  unfold merge_concurrent_operation. destruct (contains_op _ _) eqn:Ec; [intros Q; injection Q as <- <-; auto 10|].
  destruct (contains_predecessors _ _) eqn:Ep; cbn [negb]; [|intros Q; injection Q as <- <-; auto 10].
  assert (AP : forall c1, c_graph c1 = c_graph c -> c_original c1 = c_original c -> c_init c1 = c_init c -> c_owner c1 = c_owner c ->
    forall c' r, match apply_operation c1 op with
        | Ok c => (c, Ok true) | Err e => (c1, Err e) | Panic => (c1, Panic) | OutOfFuel => (c1, OutOfFuel) end = (c', r) ->
    c_original c' = c_original c /\ c_init c' = c_init c /\ c_owner c' = c_owner c /\
    ((r = Ok true /\ c_graph c' = add_op (c_graph c) op (op_preds (so_op op))) \/ ((forall b, r <> Ok b) /\ c_graph c' = c_graph c))).
  { intros c1 G O I W c2 r2. destruct (apply_operation c1 op) as [c3|e| |] eqn:Ea; intros Q; injection Q as <- <-.
    2-4: repeat split; auto; try (right; split; [intros b; discriminate|exact G]).
    apply apply_operation_graph in Ea as [[-> Q]|[_ [t ->]]]; [rewrite G, Ec in Q; discriminate|].
    split; [exact O|]. split; [exact I|]. split; [exact W|]. left. split; [reflexivity|]. cbn [c_graph set_graph]. rewrite G. reflexivity. }
  destruct (negb (heads_contained_in _ _)).
  - destruct (c_pending c); [intros Q; injection Q as <- <-; cbn; auto 10|].
    destruct (is_update _).
    + intros Q. apply AP in Q as (A & B & C & D); auto 10.
    + intros Q; injection Q as <- <-; cbn; auto 10.
  - destruct (maybe_replay horder rorder c) as [c1|e| |] eqn:Em; intros Q.
    2-4: injection Q as <- <-; repeat split; auto; try (right; right; repeat split; auto; try (right; split; [intros b; discriminate|reflexivity])).
    apply maybe_replay_graph in Em as (G & O & I & W). apply (AP c1 G O I W) in Q as (A & B & C & D). auto 10.
Qed.

Lemma update_step c sk h rng c' r : contains_op (c_graph c) h = false -> cgka_update horder rorder c sk h rng = (c', r) ->
  graph_step (c_graph c) (c_graph c') /\ c_original c' = c_original c /\ c_init c' = c_init c /\ c_owner c' = c_owner c.
Proof.
  intros F. unfold cgka_update.
  destruct (maybe_replay horder rorder c) as [c1|e| |] eqn:Em; intros Q.
  2-4: injection Q as <- <-; repeat split; auto; apply gs_same; reflexivity.
  apply maybe_replay_graph in Em as (G & O & I & W).
  destruct (update_identity _ _ _) as [[[id pk] sk']|e| |].
  2-4: injection Q as <- <-; repeat split; auto; apply gs_same; exact G.
  destruct (encrypt_path _ _ _ _ _) as [[[[[t k] path] sks] rng']|e| |].
  2-4: injection Q as <- <-; cbn; repeat split; auto; apply gs_same; exact G.
  injection Q as <- <-. cbn. repeat split; auto. rewrite G. eapply gs_local with (op := SignedOp h (CUpdate id path (horder (g_heads (c_graph c))))); cbn; auto.
Qed.

Lemma cgka_step_graph c c' : cgka_step horder rorder c c' ->
  graph_step (c_graph c) (c_graph c') /\ c_original c' = c_original c /\ c_init c' = c_init c.
Proof.
  intros S. destruct S as [id pk h r F Q|id h r F Q|sk h rng r F Q|op r Q|ref content preds sk h rng r F Q|e r Q|id sks ->].
  - unfold cgka_add in Q. destruct (contains_id _ _); [injection Q as <- <-; split; [apply gs_same|]; auto|].
    destruct (maybe_replay horder rorder c) as [c1|e| |] eqn:Em.
    2-4: injection Q as <- <-; split; [apply gs_same|]; auto.
    apply maybe_replay_graph in Em as (G & O & I & W).
    destruct (push_leaf _ _ _) as [[t i]|e| |]; injection Q as <- <-; cbn.
    2-4: split; [apply gs_same; exact G|]; auto.
    split; [|auto]. rewrite G. eapply gs_local with (op := SignedOp h (CAdd id pk i (horder (g_heads (c_graph c))) (horder (g_add_heads (c_graph c))))); cbn; auto.
  - unfold cgka_remove in Q. destruct (negb _); [injection Q as <- <-; split; [apply gs_same|]; auto|].
    destruct (maybe_replay horder rorder c) as [c1|e| |] eqn:Em.
    2-4: injection Q as <- <-; split; [apply gs_same|]; auto.
    apply maybe_replay_graph in Em as (G & O & I & W).
    destruct (_ =? 1); [injection Q as <- <-; split; [apply gs_same; exact G|]; auto|].
    destruct (remove_id _ _) as [[t [i ks]]|e| |]; injection Q as <- <-; cbn.
    2-4: split; [apply gs_same; exact G|]; auto.
    split; [|auto]. rewrite G. eapply gs_local with (op := SignedOp h (CRemove id i ks (horder (g_heads (c_graph c))))); cbn; auto.
  - apply update_step in Q; tauto.
  - apply merge_step in Q as (O & I & _ & [(_ & -> & _)|[(_ & _ & -> & _)|(N & P & [[_ G]|[_ G]])]]); split; auto;
      try (apply gs_same; auto; fail). eapply gs_remote; eauto.
  - unfold new_app_secret_for in Q. destruct (has_pcs_key c) as [[]|e| |].
    3-5: injection Q as <- <-; split; [apply gs_same|]; auto.
    + destruct (pcs_key_from_tree_root c) as [c1 r1] eqn:Er. apply root_graph in Er as [sks ->].
      assert (GO : c_graph (set_sks c sks) = c_graph c) by reflexivity.
      destruct r1 as [k|e| |].
      2-4: injection Q as <- <-; split; [apply gs_same|]; auto.
      destruct (c_pcs _ !! _).
      * destruct (c_pcs_ops _ !! _); injection Q as <- <-; split; try (apply gs_same); auto.
      * destruct (horder _); destruct (c_pcs_ops _ !! _); injection Q as <- <-; split; try (apply gs_same); auto.
    + destruct (cgka_update _ _ _ _ _ _) as [c1 r1] eqn:Eu. apply update_step in Eu as (G & O & I & _); [|exact F].
      destruct r1 as [[[k op] rng']|e| |].
      2-4: injection Q as <- <-; auto.
      destruct (c_pcs_ops _ !! _); injection Q as <- <-; cbn; auto.
  - assert (DG : forall c1 c2 h r, derive_pcs_key_for_op rorder c1 h = (c2, r) ->
      c_graph c2 = c_graph c1 /\ c_original c2 = c_original c1 /\ c_init c2 = c_init c1).
    { intros c1 c2 h r1 D. unfold derive_pcs_key_for_op in D. destruct (negb _); [injection D as <- <-; auto|].
      destruct (topsort_for_heads _ _); [|injection D as <- <-; auto..].
      unfold rebuild_pcs_key in D. destruct (rbind _ _); [|injection D as <- <-; auto..].
      destruct (last_first _); injection D as <- <-; auto. }
    assert (PG : forall c2 r, pcs_key_from_hashes rorder c (ec_pcs e) (ec_op e) = (c2, r) ->
      c_graph c2 = c_graph c /\ c_original c2 = c_original c /\ c_init c2 = c_init c).
    { intros c2 r2. unfold pcs_key_from_hashes. destruct (c_pcs c !! _); [intros D; injection D as <- <-; auto|].
      destruct (has_pcs_key c) as [[]|er| |]; try (intros D; injection D as <- <-; auto; fail); [|intros D; apply DG in D; exact D].
      destruct (pcs_key_from_tree_root c) as [c1 r1] eqn:Er. apply root_graph in Er as [sks ->].
      destruct r1; try (intros D; injection D as <- <-; auto; fail); [|intros D; apply DG in D; exact D].
      destruct (_ =? _); [intros D; injection D as <- <-; auto|intros D; apply DG in D; exact D]. }
    unfold decryption_key_for in Q. destruct (pcs_key_from_hashes _ _ _ _) as [c1 r1] eqn:Ep. destruct (PG _ _ eq_refl) as (A & B & C).
    destruct r1 as [k|er| |]; [|injection Q as <- <-; split; [apply gs_same|]; auto..].
    destruct (c_pcs c1 !! _); injection Q as <- <-; split; try (apply gs_same); auto.
  - split; [apply gs_same|]; auto.
Qed.

Lemma horder_set s : some_order horder -> list_to_set (horder s) = s.
Proof. intros H. apply set_eq. intros x. rewrite elem_of_list_to_set, (H s), elem_of_elements. reflexivity. Qed.

Lemma graph_step_reachable g g' : some_order horder -> graph_reachable g -> graph_step g g' -> graph_reachable g'.
Proof.
  intros H R [->|op N P A ->|op N P ->]; [exact R| |].
  - apply gr_local; [exact R|exact N|]. rewrite P. apply horder_set, H.
  - apply gr_remote; assumption.
Qed.

Lemma cgka_graph_reachable c : some_order horder -> cgka_reachable horder rorder c -> graph_reachable (c_graph c).
Proof.
  intros H R. induction R as [id pk h c E|c c' R IH S].
  - unfold cgka_from_init in E. apply rbind_ok in E as (t & _ & E). injection E as <-. cbn. apply gr_first. reflexivity.
  - apply cgka_step_graph in S as [S _]. eapply graph_step_reachable; eauto.
Qed.

Lemma ancestors_known_lemma g h : graph_reachable g -> is_Some (g_ops g !! h) -> ancestors_known g h.
Proof.
  intros R K a Ra. apply reachable_ginv in R as V. destruct Ra as [a|a b h P _]; [exact K|]. eapply (gi_closed _ V); eauto.
Qed.

(** Operations are never lost. *)
Lemma graph_step_mono g g' : graph_step g g' -> g_ops g ⊆ g_ops g'.
Proof.
  intros [->|op N _ _ ->|op N _ ->]; [reflexivity| |]; cbn; apply insert_subseteq; apply contains_op_false; exact N.
Qed.
End proofs.
