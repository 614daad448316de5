(** The epoch key of an operation, and the invariant behind key agreement. *)
From Coq Require Import Arith Lia.
From stdpp Require Import base list gmap relations.
From Verif Require Import ResModel KeysModel TreeMathModel TreeModel OpsModel OpsSpec OpsInv OpsProofs OpsEpochs OpsPropsProofs OpsExtend
  CgkaModel CgkaSpec CgkaProofs CgkaReplay CgkaConverge CgkaSound NetSpec NetProofs NetKeys.

(** Replaying the ancestry of [h] ends with root key [k]. *)
Definition epoch_key (ops : gmap digest signed_op) (h : digest) (k : secret_key) : Prop :=
  exists ro g es orig init t g', some_order ro /\ GInv g /\ g_ops g ⊆ ops /\ is_Some (g_ops g !! h) /\
    ops !! so_hash init = Some init /\ so_op init = init_add orig.1 orig.2 /\
    topsort_for_heads g [h] = Ok es /\ replays ro orig init es t g' /\ root_is t k.

Lemma epoch_key_mono ops ops' h k : ops ⊆ ops' -> epoch_key ops h k -> epoch_key ops' h k.
Proof.
  intros S (ro & g & es & orig & init & t & g' & A & B & C & D & E & F & G & H & I).
  exists ro, g, es, orig, init, t, g'. repeat (split; [assumption|]). split; [transitivity ops; assumption|]. split; [assumption|].
  split; [eapply lookup_weaken; eauto|]. auto.
Qed.
Lemma init_unique ops init init' orig orig' : single_root (all_ops ops) ->
  ops !! so_hash init = Some init -> so_op init = init_add orig.1 orig.2 ->
  ops !! so_hash init' = Some init' -> so_op init' = init_add orig'.1 orig'.2 -> init = init' /\ orig = orig'.
Proof.
  intros SR A B A' B'. assert (Eh : so_hash init = so_hash init').
  { eapply (SR _ _ _ _ A A'); [rewrite B|rewrite B']; reflexivity. }
  assert (init = init') as <- by (rewrite Eh, A' in A; congruence). split; [reflexivity|].
  rewrite B in B'. unfold init_add in B'. injection B' as Q Q'. destruct orig, orig'; cbn in *; congruence.
Qed.
Lemma epoch_key_fun ops h k k' : single_root (all_ops ops) -> epoch_key ops h k -> epoch_key ops h k' -> k = k'.
Proof.
  intros SR (ro & g & es & orig & init & t & g1 & A & B & C & D & E & F & G & H & I) (ro' & g' & es' & orig' & init' & t' & g1' & A' & B' & C' & D' & E' & F' & G' & H' & I').
  destruct (init_unique _ _ _ _ _ SR E F E' F') as [<- <-].
  rewrite (topsort_same_ancestry g g' ops h B B' C C' D D'), G' in G. injection G as ->.
  destruct (replays_det _ _ _ _ _ _ _ _ _ A A' H H') as [<- _]. eapply root_is_unique; eauto.
Qed.

(** Everything but the first operation was made by somebody who knew a closed part and
    named its heads. *)
Definition all_made (ops : gmap digest signed_op) : Prop :=
  forall h o, ops !! h = Some o -> op_preds (so_op o) = ∅ \/
    exists g, graph_reachable g /\ g_ops g ⊆ ops /\ g_ops g !! h = None /\ op_preds (so_op o) = g_heads g.

Lemma replay_ends_with ops g h o : ops_ok ops -> all_made ops -> GInv g -> g_ops g ⊆ ops -> g_ops g !! h = Some o ->
  exists es, topsort_for_heads g [h] = Ok (es ++ [[o]]).
Proof.
  intros K M V S Eh. pose proof (lookup_weaken _ _ _ _ Eh S) as Eo. pose proof (oo_hash _ K _ _ Eo) as Hh. subst h.
  assert (Lift : forall g0, graph_reachable g0 -> g_ops g0 ⊆ ops -> g_ops g0 !! so_hash o = Some o ->
    topsort_for_heads g [so_hash o] = topsort_for_heads g0 [so_hash o]).
  { intros g0 R0 S0 E0. eapply (topsort_same_ancestry g g0 ops); [exact V|apply reachable_ginv, R0|exact S|exact S0|eauto|eauto]. }
  assert (SR : forall g0, g_ops g0 ⊆ ops -> single_root g0) by (intros g0 S0; eapply single_root_mono; [|exact (oo_root _ K)]; exact S0).
  destruct (M _ _ Eo) as [P|(g0 & R0 & S0 & F0 & P)].
  - set (g0 := add_local_op graph_new o). assert (R0 : graph_reachable g0) by (apply gr_first, P).
    assert (S0 : g_ops g0 ⊆ ops) by (cbn; rewrite insert_empty; apply map_singleton_subseteq_l, Eo).
    assert (E0 : g_ops g0 !! so_hash o = Some o) by apply lookup_insert.
    rewrite (Lift g0 R0 S0 E0).
    destruct (replay_order_lemma g0 [so_hash o] R0 (SR g0 S0)) as (es & Et & [Gc Go _ Gn _]).
    { apply NoDup_singleton. } { discriminate. }
    { intros x Hx. apply elem_of_list_singleton in Hx as ->. eauto. }
    rewrite Et. exists []. cbn [app]. f_equal.
    assert (All : forall x, x ∈ concat es -> x = o).
    { intros x Hx. apply Gc in Hx as [Hx _]. cbn in Hx. apply lookup_insert_Some in Hx as [[_ Q]|[_ Q]]; [auto|rewrite lookup_empty in Q; discriminate]. }
    assert (In : o ∈ concat es) by (apply Gc; split; [exact E0|exists (so_hash o); split; [left|constructor]]).
    destruct es as [|e es]; [apply elem_of_nil in In as []|]. cbn [concat] in *.
    destruct e as [|x e]; [exfalso; eapply Gn; [left|reflexivity]|]. assert (x = o) as -> by (apply All; left).
    assert (Rest : e ++ concat es = []).
    { destruct (e ++ concat es) as [|y l] eqn:Q; [reflexivity|]. exfalso. cbn in Go. rewrite Q in Go. apply NoDup_cons in Go as [Go _]. apply Go.
      assert (y = o) as ->; [|left]. apply All. cbn. rewrite Q. right. left. }
    apply app_eq_nil in Rest as [-> Rest]. destruct es as [|e es]; [reflexivity|]. exfalso. cbn in Rest. apply app_eq_nil in Rest as [-> _].
    eapply Gn; [right; left|reflexivity].
  - destruct (replay_order_lemma g0 (elements (g_heads g0)) R0 (SR g0 S0)) as (es & Et & _).
    { apply NoDup_elements. } { intros Q. apply elements_empty_inv in Q. apply (heads_nonempty _ R0), leibniz_equiv, Q. }
    { intros x Hx. apply elem_of_elements in Hx. apply (gi_heads _ (reachable_ginv _ R0)) in Hx. tauto. }
    set (g1 := add_local_op g0 o). assert (R1 : graph_reachable g1) by (apply gr_local; [exact R0|apply contains_op_false, F0|exact P]).
    assert (X : extends g0 g1 o) by (constructor; [reflexivity|exact F0|exact P]).
    rewrite (Lift g1 R1); [|cbn; apply map_subseteq_spec; intros x y Q; apply lookup_insert_Some in Q as [[<- <-]|[_ Q]]; [exact Eo|eapply lookup_weaken; eauto]|apply lookup_insert].
    exists es. eapply (topsort_extend g0); [exact R0|apply reachable_ginv, R1|apply SR, S0|exact X|reflexivity|exact Et].
Qed.
Lemma last_first_snoc es o : last_first (es ++ [[o]]) = Ok (so_hash o).
Proof. unfold last_first. rewrite last_snoc. reflexivity. Qed.

(** A replica's keys and tree are right. *)
Record local_good (c : cgka) : Prop := {
  lg_tree : good_tree (c_tree c);
  lg_sks : good_sks (c_sks c);
  lg_ops h o : g_ops (c_graph c) !! h = Some o -> sound_op (so_op o)
}.
(** Its cached epoch keys are those of the operations it files them under. *)
Record keys_good (ops : gmap digest signed_op) (c : cgka) : Prop := {
  kg_pcs kh k : c_pcs c !! kh = Some k -> k = kh /\ exists h, c_pcs_ops c !! kh = Some h;
  kg_ops kh h : c_pcs_ops c !! kh = Some h -> epoch_key ops h kh
}.
Lemma keys_good_same ops c c' : c_pcs c' = c_pcs c -> c_pcs_ops c' = c_pcs_ops c -> keys_good ops c -> keys_good ops c'.
Proof. intros A B [C D]. constructor; rewrite A, B || rewrite B; auto. Qed.
Lemma keys_good_mono ops ops' c : ops ⊆ ops' -> keys_good ops c -> keys_good ops' c.
Proof. intros S [C D]. constructor; [auto|]. intros kh h Q. eapply epoch_key_mono; eauto. Qed.
Lemma keys_good_insert ops c k h : keys_good ops c -> epoch_key ops h k -> keys_good ops (insert_pcs_key c k h).
Proof.
  intros [A B] E. constructor; cbn; unfold pcs_digest.
  - intros kh k' Q. apply lookup_insert_Some in Q as [[<- <-]|[N Q]]; [split; [reflexivity|exists h; apply lookup_insert]|].
    rewrite lookup_insert_ne by exact N. auto.
  - intros kh h' Q. apply lookup_insert_Some in Q as [[<- <-]|[N Q]]; [exact E|auto].
Qed.

Lemma insert_pcs_mono ops c k h : keys_good ops c -> c_pcs c ⊆ c_pcs (insert_pcs_key c k h).
Proof.
  intros KG. apply map_subseteq_spec. intros kh k' Q. cbn. unfold pcs_digest. destruct (decide (k = kh)) as [<-|N].
  - rewrite lookup_insert. destruct (kg_pcs _ _ KG _ _ Q) as [-> _]. reflexivity.
  - rewrite lookup_insert_ne by exact N. exact Q.
Qed.

Section one.
Context (horder : gset digest -> list digest).
Context (rorder : gset (member_id * nat) -> list (member_id * nat)).
Context (HH : some_order horder) (HR : some_order rorder).

Lemma sound_epochs g es : (forall h o, g_ops g !! h = Some o -> sound_op (so_op o)) -> (forall o, o ∈ concat es -> g_ops g !! so_hash o = Some o) ->
  Forall (fun o => sound_op (so_op o)) (concat es).
Proof. intros S H. apply Forall_forall. intros o Ho. eapply S, H, Ho. Qed.

Lemma maybe_replay_good c c1 : cgka_reachable horder rorder c -> single_root (c_graph c) -> local_good c ->
  maybe_replay horder rorder c = Ok c1 -> local_good c1 /\ c_pcs c1 = c_pcs c /\ c_pcs_ops c1 = c_pcs_ops c.
Proof.
  intros R SR [A B C] Em. pose proof (maybe_replay_keys horder rorder HH HR c c1 R SR Em) as (K1 & K2 & K3).
  pose proof (maybe_replay_graph _ _ _ _ Em) as (G & _). split; [|auto]. constructor; [|rewrite K1; exact B|rewrite G; exact C].
  unfold maybe_replay in Em. destruct (should_replay c); [|injection Em as <-; exact A].
  destruct (replay_canonical horder rorder HR _ _ Em) as (es & g & Et & Re).
  assert (Rg : graph_reachable (c_graph c)) by (eapply cgka_graph_reachable; eauto).
  destruct (replay_same_lemma _ _ horder horder Rg Rg eq_refl SR HH HH) as (es' & Et1 & _ & _ & Hes). rewrite Et in Et1. injection Et1 as <-.
  eapply good_replays; [exact Re|]. eapply sound_epochs; [exact C|]. intros o Ho. apply Hes, Ho.
Qed.

Lemma apply_operation_good c op c' : local_good c -> sound_op (so_op op) -> apply_operation c op = Ok c' ->
  local_good c' /\ c_pcs c' = c_pcs c /\ c_pcs_ops c' = c_pcs_ops c.
Proof.
  intros [A B C] So Q. pose proof (good_apply_operation _ _ _ Q So A) as T.
  apply apply_operation_graph in Q as [[-> _]|[_ [t ->]]]; [split; [constructor; auto|auto]|]. split; [|auto].
  constructor; [exact T|exact B|]. cbn. intros h o Q. apply lookup_insert_Some in Q as [[_ <-]|[_ Q]]; eauto.
Qed.

Lemma add_good c id pk h c' x : cgka_reachable horder rorder c -> single_root (c_graph c) -> local_good c ->
  cgka_add horder rorder c id pk h = (c', x) -> local_good c' /\ c_pcs c' = c_pcs c /\ c_pcs_ops c' = c_pcs_ops c.
Proof.
  intros R SR L. unfold cgka_add. destruct (contains_id _ _); [intros Q; injection Q as <- <-; auto|].
  destruct (maybe_replay horder rorder c) as [c1|e| |] eqn:Em; [|intros Q; injection Q as <- <-; auto..].
  apply (maybe_replay_good _ _ R SR L) in Em as (L1 & K1 & K2).
  destruct (push_leaf _ _ _) as [[t i]|e| |] eqn:Ep; intros Q; injection Q as <- <-; auto.
  split; [|cbn; auto]. destruct L1 as [A B C]. constructor; [eapply good_push; eauto|exact B|].
  cbn. intros x o Q. apply lookup_insert_Some in Q as [[_ <-]|[_ Q]]; [exact I|eauto].
Qed.
Lemma remove_good c id h c' x : cgka_reachable horder rorder c -> single_root (c_graph c) -> local_good c ->
  cgka_remove horder rorder c id h = (c', x) -> local_good c' /\ c_pcs c' = c_pcs c /\ c_pcs_ops c' = c_pcs_ops c.
Proof.
  intros R SR L. unfold cgka_remove. destruct (negb _); [intros Q; injection Q as <- <-; auto|].
  destruct (maybe_replay horder rorder c) as [c1|e| |] eqn:Em; [|intros Q; injection Q as <- <-; auto..].
  apply (maybe_replay_good _ _ R SR L) in Em as (L1 & K1 & K2). destruct (_ =? 1); [intros Q; injection Q as <- <-; auto|].
  destruct (remove_id _ _) as [[t [i ks]]|e| |] eqn:Ep; intros Q; injection Q as <- <-; auto.
  split; [|cbn; auto]. destruct L1 as [A B C]. constructor; [eapply good_remove; eauto|exact B|].
  cbn. intros x o Q. apply lookup_insert_Some in Q as [[_ <-]|[_ Q]]; [exact I|eauto].
Qed.
Lemma update_good c sk h rng c' x : cgka_reachable horder rorder c -> single_root (c_graph c) -> local_good c ->
  cgka_update horder rorder c sk h rng = (c', x) -> local_good c' /\
  ((c_pcs c' = c_pcs c /\ c_pcs_ops c' = c_pcs_ops c /\ forall y, x <> Ok y) \/
   exists k op rng' c1, x = Ok (k, op, rng') /\ so_hash op = h /\ c' = insert_pcs_key c1 k h /\ c_pcs c1 = c_pcs c /\ c_pcs_ops c1 = c_pcs_ops c /\
     root_is (c_tree c') k /\ g_heads (c_graph c') = {[ h ]}).
Proof.
  intros R SR L. unfold cgka_update. destruct (maybe_replay horder rorder c) as [c1|e| |] eqn:Em; [|intros Q; injection Q as <- <-; split; [exact L|left; split; [reflexivity|split; [reflexivity|discriminate]]]..].
  apply (maybe_replay_good _ _ R SR L) in Em as (L1 & K1 & K2).
  destruct (update_identity c1 (pub sk) sk) as [[[id pk] sk']|e| |] eqn:Eu; [|intros Q; injection Q as <- <-; split; [exact L1|left; split; [exact K1|split; [exact K2|discriminate]]]..].
  assert (P : pub sk' = pk).
  { unfold update_identity in Eu. destruct (contains_id _ _); [injection Eu as <- <- <-; reflexivity|].
    destruct (node_key_for_id _ _) as [[pk'|]|e| |]; try discriminate. apply rbind_ok in Eu as (s & Es & Eu). injection Eu as <- <- <-.
    destruct (c_sks c1 !! pk') as [s'|] eqn:El; [|discriminate]. injection Es as ->. apply (lg_sks _ L1 _ _ El). }
  destruct L1 as [A B C].
  assert (GS : good_sks (<[pk := sk']> (c_sks c1))) by (rewrite <- P; apply good_sks_insert, B).
  destruct (encrypt_path _ _ _ _ _) as [[[[[t k] path] sks] rng']|e| |] eqn:Ee; intros Q; injection Q as <- <-; cbn [c_tree c_sks set_sks] in Ee.
  2-4: (split; [constructor; [exact A|exact GS|exact C]|left; split; [exact K1|split; [exact K2|discriminate]]]).
  pose proof (encrypt_path_apply _ _ _ _ _ _ _ _ _ _ Ee) as Ea.
  apply (encrypt_path_sound _ _ _ _ _ _ _ _ _ _ A GS) in Ee as (E1 & E2 & E3).
  split.
  - constructor; cbn; [|exact E1|].
    + eapply good_apply_path; eauto.
    + intros y o Q. apply lookup_insert_Some in Q as [[_ <-]|[_ Q]]; [exact E2|eauto].
  - right. eexists k, _, rng', _. split; [reflexivity|]. split; [reflexivity|]. split; [reflexivity|]. split; [exact K1|]. split; [exact K2|].
    split; [exact E3|]. cbn. clear. set_solver.
Qed.
Lemma merge_good c op c' x : cgka_reachable horder rorder c -> single_root (c_graph c) -> local_good c -> sound_op (so_op op) ->
  merge_concurrent_operation horder rorder c op = (c', x) -> local_good c' /\ c_pcs c' = c_pcs c /\ c_pcs_ops c' = c_pcs_ops c.
Proof.
  intros R SR L So. unfold merge_concurrent_operation. destruct (contains_op _ _); [intros Q; injection Q as <- <-; auto|].
  destruct (negb (contains_predecessors _ _)); [intros Q; injection Q as <- <-; auto|].
  assert (Ins : forall c1, c_tree c1 = c_tree c -> c_sks c1 = c_sks c -> g_ops (c_graph c1) = <[so_hash op := op]> (g_ops (c_graph c)) -> local_good c1).
  { intros c1 T S G. destruct L as [A B C]. constructor; [rewrite T; exact A|rewrite S; exact B|]. rewrite G. intros y o Q.
    apply lookup_insert_Some in Q as [[_ <-]|[_ Q]]; [exact So|eauto]. }
  destruct (heads_contained_in _ _); cbn [negb].
  - destruct (maybe_replay horder rorder c) as [c1|e| |] eqn:Em; [|intros Q; injection Q as <- <-; auto..].
    apply (maybe_replay_good _ _ R SR L) in Em as (L1 & K1 & K2).
    destruct (apply_operation c1 op) as [c2|e| |] eqn:Ea; intros Q; injection Q as <- <-; auto.
    apply (apply_operation_good _ _ _ L1 So) in Ea as (L2 & K3 & K4). rewrite K3, K4. auto.
  - destruct (c_pending c); [intros Q; injection Q as <- <-; split; [apply Ins; reflexivity|auto]|].
    destruct (is_update _); [|intros Q; injection Q as <- <-; split; [apply Ins; reflexivity|auto]].
    destruct (apply_operation c op) as [c2|e| |] eqn:Ea; intros Q; injection Q as <- <-; auto. eapply apply_operation_good; eauto.
Qed.

Lemma set_sks_good c sks : local_good c -> good_sks sks -> local_good (set_sks c sks).
Proof. intros [A B C] G. constructor; auto. Qed.
Lemma insert_pcs_good c k h : local_good c -> local_good (insert_pcs_key c k h).
Proof. intros [A B C]. constructor; auto. Qed.

(** The current root key belongs to the single head. *)
Lemma head_epoch_key c h k : cgka_reachable horder rorder c -> single_root (c_graph c) -> unordered_preds (c_graph c) ->
  g_heads (c_graph c) = {[ h ]} -> root_is (c_tree c) k -> epoch_key (g_ops (c_graph c)) h k.
Proof.
  intros R SR U Hh Ri. assert (Rg : graph_reachable (c_graph c)) by (eapply cgka_graph_reachable; eauto).
  destruct (quiescent_canonical_inv horder rorder HH HR c R SR U) as (es & g & Et & Re).
  { unfold has_single_head. rewrite Hh, size_singleton. reflexivity. }
  destruct (init_kept horder rorder c R) as [Ki Oi]. unfold topsort_graph in Et.
  assert (Hp : horder (g_heads (c_graph c)) = [h]).
  { apply Permutation_singleton_r. rewrite (HH _), Hh, elements_singleton. reflexivity. }
  rewrite Hp in Et.
  exists rorder, (c_graph c), es, (c_original c), (c_init c), (c_tree c), g. split; [exact HR|]. split; [apply reachable_ginv, Rg|].
  split; [reflexivity|]. split; [apply (gi_heads _ (reachable_ginv _ Rg)); rewrite Hh; apply elem_of_singleton; reflexivity|].
  auto.
Qed.

(** A derived key belongs to the operation it was derived for. *)
Lemma derive_key c h c' r ops : cgka_reachable horder rorder c -> local_good c -> g_ops (c_graph c) ⊆ ops -> ops_ok ops -> all_made ops ->
  derive_pcs_key_for_op rorder c h = (c', r) ->
  (c' = c /\ forall k, r <> Ok k) \/ (exists k, r = Ok k /\ c' = insert_pcs_key c k h /\ epoch_key (g_ops (c_graph c)) h k).
Proof.
  intros R L S OK M. assert (Rg : graph_reachable (c_graph c)) by (eapply cgka_graph_reachable; eauto).
  pose proof (reachable_ginv _ Rg) as V. unfold derive_pcs_key_for_op.
  destruct (contains_op (c_graph c) h) eqn:Kh; cbn [negb]; [|intros Q; injection Q as <- <-; left; split; [reflexivity|discriminate]].
  apply contains_some in Kh as [o Eo]. destruct (replay_ends_with ops _ _ _ OK M V S Eo) as [es Et]. rewrite Et.
  assert (SR : single_root (c_graph c)) by (eapply single_root_mono; [|exact (oo_root _ OK)]; exact S).
  destruct (replay_order_lemma (c_graph c) [h] Rg SR) as (es' & Et' & [Gc _ _ _ _]).
  { apply NoDup_singleton. } { discriminate. }
  { intros x Hx. apply elem_of_list_singleton in Hx as ->. eauto. }
  rewrite Et in Et'. injection Et' as <-.
  unfold rebuild_pcs_key. rewrite last_first_snoc. destruct (rebuild_from rorder c (es ++ [[o]])) as [c1|e| |] eqn:Er; cbn [rbind].
  2-4: intros Q; injection Q as <- <-; left; split; [reflexivity|discriminate].
  destruct (pcs_key_from_tree_root c1) as [c2 r2] eqn:Ep. cbn [snd]. destruct r2 as [k|e| |]; intros Q; injection Q as <- <-.
  2-4: left; split; [reflexivity|discriminate].
  right. exists k. rewrite (gi_hash _ V _ _ Eo). split; [reflexivity|]. split; [reflexivity|].
  pose proof (rebuild_from_replays _ _ _ _ HR Er) as Re. apply rebuild_keeps in Er as (Es & _).
  assert (G1 : good_tree (c_tree c1)).
  { eapply good_replays; [exact Re|]. eapply sound_epochs; [exact (lg_ops _ L)|]. intros x Hx. apply Gc in Hx. tauto. }
  apply root_key_sound in Ep as [_ Ri]; [|exact G1|rewrite Es; exact (lg_sks _ L)].
  destruct (init_kept horder rorder c R) as [Ki Oi].
  exists rorder, (c_graph c), (es ++ [[o]]), (c_original c), (c_init c), (c_tree c1), (c_graph c1). split; [exact HR|]. split; [exact V|].
  split; [reflexivity|]. split; [eauto|]. auto 6.
Qed.

Lemma single_head_is g : has_single_head g = true -> exists h, g_heads g = {[ h ]}.
Proof. unfold has_single_head. intros H. apply Nat.eqb_eq in H. apply size_1_elem_of in H as [x Hx]. exists x. apply leibniz_equiv, Hx. Qed.

Lemma new_app_secret_good c ref content preds sk h rng c' x ops : cgka_reachable horder rorder c -> cgka_reachable horder rorder c' ->
  local_good c -> g_ops (c_graph c) ⊆ ops -> g_ops (c_graph c') ⊆ ops -> ops_ok ops -> keys_good ops c ->
  new_app_secret_for horder rorder c ref content preds sk h rng = (c', x) ->
  local_good c' /\ keys_good ops c' /\ (c_pcs c ⊆ c_pcs c') /\
  forall s o, x = Ok (s, o) -> exists k, as_pcs s = k /\ as_key s = AppKey k (as_preds s) (as_ref s) /\ c_pcs c' !! k = Some k /\ epoch_key ops (as_op s) k.
Proof.
  intros R R' L S S' OK KG.
  assert (SR : single_root (c_graph c)) by (eapply single_root_mono; [|exact (oo_root _ OK)]; exact S).
  assert (SR' : single_root (c_graph c')) by (eapply single_root_mono; [|exact (oo_root _ OK)]; exact S').
  assert (U : unordered_preds (c_graph c)) by (eapply unordered_mono; [|exact (oo_unordered _ OK)]; exact S).
  assert (U' : unordered_preds (c_graph c')) by (eapply unordered_mono; [|exact (oo_unordered _ OK)]; exact S').
  unfold new_app_secret_for. destruct (has_pcs_key c) as [[]|e| |] eqn:Eh.
  3-5: intros Q; injection Q as <- <-; split; [exact L|]; split; [exact KG|]; split; [reflexivity|discriminate].
  - destruct (pcs_key_from_tree_root c) as [c1 r1] eqn:Er. pose proof (root_graph _ _ _ Er) as [sks ->].
    apply root_key_sound in Er as [GS Ri]; [|exact (lg_tree _ L)|exact (lg_sks _ L)].
    pose proof (set_sks_good c sks L GS) as L1.
    assert (KG1 : keys_good ops (set_sks c sks)) by (apply (keys_good_same ops c); [reflexivity|reflexivity|exact KG]).
    destruct r1 as [k|e| |]; [|intros Q; injection Q as <- <-; split; [exact L1|]; split; [exact KG1|]; split; [reflexivity|discriminate]..].
    unfold has_pcs_key in Eh. apply rbind_ok in Eh as (b & _ & Eh). injection Eh as Eh. apply andb_true_iff in Eh as [Eh _]. apply andb_true_iff in Eh as [_ Eh].
    apply single_head_is in Eh as [hd Hhd].
    assert (Ek : epoch_key ops hd k) by (eapply epoch_key_mono; [exact S|eapply head_epoch_key; eauto]).
    assert (Hp : horder (g_heads (c_graph c)) = [hd]).
    { apply Permutation_singleton_r. rewrite (HH _), Hhd, elements_singleton. reflexivity. }
    cbn [c_pcs c_pcs_ops c_graph set_sks]. rewrite Hp. unfold pcs_digest.
    destruct (c_pcs c !! k) as [k'|] eqn:Ec.
    + destruct (kg_pcs _ _ KG _ _ Ec) as [-> [oh Eoh]]. cbn [c_pcs_ops set_sks]. rewrite Eoh. intros Q. injection Q as <- <-.
      split; [exact L1|]. split; [exact KG1|]. split; [reflexivity|]. intros s o Q. injection Q as <- <-. exists k. cbn. split; [reflexivity|]. split; [reflexivity|].
      split; [exact Ec|]. exact (kg_ops _ _ KG _ _ Eoh).
    + cbn [c_pcs_ops set_sks insert_pcs_key]. unfold pcs_digest. rewrite lookup_insert. intros Q. injection Q as <- <-.
      split; [apply insert_pcs_good, L1|]. split; [apply keys_good_insert; assumption|]. split; [exact (insert_pcs_mono ops _ k hd KG1)|].
      intros s o Q. injection Q as <- <-. exists k. cbn. split; [reflexivity|]. split; [reflexivity|]. split; [apply lookup_insert|exact Ek].
  - destruct (cgka_update horder rorder c sk h rng) as [c1 r1] eqn:Eu.
    apply (update_good _ _ _ _ _ _ R SR L) in Eu as [L1 [(K1 & K2 & Nx)|(k & op & rng' & c2 & -> & Eop & -> & K1 & K2 & Ri & Hhd)]].
    + destruct r1 as [[[k op] rng']|e| |]; [exfalso; eapply Nx; reflexivity|..].
      all: intros Q; injection Q as <- <-; split; [exact L1|]; split; [apply (keys_good_same ops c); [exact K1|exact K2|exact KG]|]; split; [rewrite K1; reflexivity|discriminate].
    + cbn [c_pcs_ops insert_pcs_key]. unfold pcs_digest. rewrite lookup_insert. intros Q. injection Q as <- <-.
      assert (Ek : epoch_key ops h k).
      { eapply epoch_key_mono; [exact S'|]. eapply (head_epoch_key _ h k R' SR' U'); [exact Hhd|exact Ri]. }
      assert (KG2 : keys_good ops c2) by (apply (keys_good_same ops c); [exact K1|exact K2|exact KG]).
      pose proof (keys_good_insert _ _ _ _ KG2 Ek) as KG3.
      split; [apply insert_pcs_good, L1|]. rewrite Eop. split; [|split].
      * apply keys_good_insert; [exact KG3|exact Ek].
      * transitivity (c_pcs (insert_pcs_key c2 k h)); [rewrite <- K1; exact (insert_pcs_mono ops c2 k h KG2)|exact (insert_pcs_mono ops _ k h KG3)].
      * intros s o Q. injection Q as <- <-. exists k. cbn. split; [reflexivity|]. split; [reflexivity|]. split; [apply lookup_insert|exact Ek].
Qed.

(** A ciphertext made by a replica that follows the protocol. *)
Record honest_content (ops : gmap digest signed_op) (e : encrypted_content) : Prop := {
  hc_key : ct_key (ec_cipher e) = AppKey (ec_pcs e) (ec_preds e) (ec_ref e);
  hc_nonce : ct_nonce (ec_cipher e) = ec_nonce e;
  hc_epoch : epoch_key ops (ec_op e) (ec_pcs e)
}.

Lemma decryption_good c e c' x ops : cgka_reachable horder rorder c ->
  local_good c -> g_ops (c_graph c) ⊆ ops -> ops_ok ops -> all_made ops -> keys_good ops c -> honest_content ops e ->
  decryption_key_for rorder c e = (c', x) ->
  local_good c' /\ keys_good ops c' /\ (c_pcs c ⊆ c_pcs c') /\
  forall key, x = Ok key -> content_decrypt e key = Some (ct_plain (ec_cipher e)).
Proof.
  intros R L S OK M KG [H1 H2 H3].
  assert (Dec : forall key, key = AppKey (ec_pcs e) (ec_preds e) (ec_ref e) -> content_decrypt e key = Some (ct_plain (ec_cipher e))).
  { intros key ->. unfold content_decrypt. rewrite decide_True; [reflexivity|auto]. }
  assert (PH : forall c1 r1, pcs_key_from_hashes rorder c (ec_pcs e) (ec_op e) = (c1, r1) ->
    local_good c1 /\ keys_good ops c1 /\ (c_pcs c ⊆ c_pcs c1) /\ forall k, r1 = Ok k -> k = ec_pcs e).
  { intros c1 r1. unfold pcs_key_from_hashes. destruct (c_pcs c !! ec_pcs e) as [k|] eqn:Ek.
    { intros Q. injection Q as <- <-. split; [exact L|]. split; [exact KG|]. split; [reflexivity|]. intros k' Q. injection Q as <-.
      apply (kg_pcs _ _ KG _ _ Ek). }
    assert (DK : forall c0, local_good c0 -> keys_good ops c0 -> c_graph c0 = c_graph c -> c_original c0 = c_original c -> c_init c0 = c_init c -> c_pcs c0 = c_pcs c ->
       cgka_reachable horder rorder c0 ->
       derive_pcs_key_for_op rorder c0 (ec_op e) = (c1, r1) ->
       local_good c1 /\ keys_good ops c1 /\ (c_pcs c ⊆ c_pcs c1) /\ forall k, r1 = Ok k -> k = ec_pcs e).
    { intros c0 L0 KG0 G0 O0 I0 P0 R0 D. apply (derive_key _ _ _ _ ops) in D as [[-> N]|(k & -> & -> & Ek')]; [| |assumption..|rewrite G0; exact S|assumption|assumption].
      - split; [exact L0|]. split; [exact KG0|]. split; [rewrite P0; reflexivity|]. intros k Q. exfalso. eapply N; exact Q.
      - rewrite G0 in Ek'. apply (epoch_key_mono _ _ _ _ S) in Ek'.
        assert (k = ec_pcs e) by (eapply epoch_key_fun; [exact (oo_root _ OK)|exact Ek'|exact H3]). subst k.
        split; [apply insert_pcs_good, L0|]. split; [apply keys_good_insert; assumption|]. split; [|intros k Q; injection Q as <-; reflexivity].
        cbn. rewrite P0. apply insert_subseteq. exact Ek. }
    destruct (has_pcs_key c) as [[]|er| |].
    3-5: intros Q; injection Q as <- <-; split; [exact L|]; split; [exact KG|]; split; [reflexivity|discriminate].
    2: { apply DK; auto. }
    destruct (pcs_key_from_tree_root c) as [c2 r2] eqn:Er. pose proof (root_graph _ _ _ Er) as [sks ->].
    apply root_key_sound in Er as [GS Ri]; [|exact (lg_tree _ L)|exact (lg_sks _ L)]. cbn [c_sks set_sks] in GS.
    pose proof (set_sks_good c sks L GS) as L1.
    assert (KG1 : keys_good ops (set_sks c sks)) by (apply (keys_good_same ops c); [reflexivity|reflexivity|exact KG]).
    assert (R1 : cgka_reachable horder rorder (set_sks c sks)) by (eapply cr_step; [exact R|]; apply (st_owner _ _ c _ (c_owner c) sks); reflexivity).
    destruct r2 as [k|er| |].
    3-4: intros Q; injection Q as <- <-; split; [exact L1|]; split; [exact KG1|]; split; [reflexivity|discriminate].
    2: { apply DK; auto. }
    unfold pcs_digest. destruct (Nat.eqb_spec k (ec_pcs e)) as [->|N]; [|apply DK; auto].
    intros Q; injection Q as <- <-; split; [exact L1|]; split; [exact KG1|]; split; [reflexivity|]. intros k Q. injection Q as <-. reflexivity. }
  unfold decryption_key_for. destruct (pcs_key_from_hashes _ _ _ _) as [c1 r1] eqn:Ep. destruct (PH _ _ eq_refl) as (L1 & KG1 & P1 & Ek).
  destruct r1 as [k|er| |]; [|intros Q; injection Q as <- <-; split; [exact L1|]; split; [exact KG1|]; split; [exact P1|discriminate]..].
  specialize (Ek k eq_refl). subst k. destruct (c_pcs c1 !! ec_pcs e) eqn:Ec; intros Q; injection Q as <- <-.
  - split; [exact L1|]. split; [exact KG1|]. split; [exact P1|]. intros key Q. injection Q as <-. apply Dec. reflexivity.
  - split; [apply insert_pcs_good, L1|]. split; [apply keys_good_insert; assumption|]. split.
    + cbn. transitivity (c_pcs c1); [exact P1|]. apply insert_subseteq. exact Ec.
    + intros key Q. injection Q as <-. apply Dec. reflexivity.
Qed.
End one.
