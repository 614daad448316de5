(** Networks: what is made, and convergence of quiescent replicas. *)
From Coq Require Import Arith Lia.
From stdpp Require Import base list gmap relations.
From Verif Require Import ResModel KeysModel TreeMathModel TreeModel OpsModel OpsSpec OpsInv OpsProofs OpsEpochs OpsPropsProofs OpsExtend
  CgkaModel CgkaSpec CgkaProofs CgkaReplay CgkaConverge NetSpec.

(** Everything made, as a graph; only [g_ops] matters. *)
Definition all_ops (ops : gmap digest signed_op) : graph := Graph ops ∅ ∅ ∅.

(** Properties of everything made. *)
Record ops_ok (ops : gmap digest signed_op) : Prop := {
  oo_hash h o : ops !! h = Some o -> so_hash o = h;
  oo_closed p h : pred_of (all_ops ops) p h -> is_Some (ops !! p);
  oo_root : single_root (all_ops ops);
  oo_unordered : unordered_preds (all_ops ops)
}.

(** An operation that names the heads of a causally closed part. *)
Lemma ops_ok_insert ops g op : ops_ok ops -> graph_reachable g -> g_ops g ⊆ ops -> ops !! so_hash op = None ->
  op_preds (so_op op) = g_heads g -> ops_ok (<[so_hash op := op]> ops).
Proof.
  intros [A B C D] R Sub N P. pose proof (reachable_ginv g R) as V.
  assert (Hin : forall x, x ∈ g_heads g -> is_Some (ops !! x)).
  { intros x Hx. apply (gi_heads _ V) in Hx as [[o Eo] _]. exists o. eapply lookup_weaken; eauto. }
  assert (NP : forall x, ~ pred_of (all_ops (<[so_hash op := op]> ops)) (so_hash op) x).
  { intros x (o & Eo & Hp). cbn in Eo. apply lookup_insert_Some in Eo as [[<- <-]|[_ Eo]].
    - rewrite P in Hp. apply Hin in Hp as [? Q]. congruence.
    - assert (Q : pred_of (all_ops ops) (so_hash op) x) by (exists o; auto). apply B in Q as [? Q]. congruence. }
  (* causal paths to old operations are old *)
  assert (Old : forall x y, before (all_ops (<[so_hash op := op]> ops)) x y -> is_Some (ops !! y) -> before (all_ops ops) x y).
  { intros x y H. induction H as [x y (o & Eo & Hp)|x y z (o & Eo & Hp) _ IH]; intros K; cbn in Eo.
    - apply tc_once. apply lookup_insert_Some in Eo as [[<- <-]|[_ Eo]]; [destruct K; congruence|]. exists o. auto.
    - specialize (IH K). apply lookup_insert_Some in Eo as [[<- <-]|[_ Eo]].
      + exfalso. clear -IH N B. assert (E : exists w, pred_of (all_ops ops) (so_hash op) w) by (destruct IH; eauto). destruct E as [w E]. apply B in E as [? Q]. congruence.
      + eapply tc_l; [exists o; eauto|exact IH]. }
  constructor.
  - intros h o E. apply lookup_insert_Some in E as [[<- <-]|[_ E]]; [reflexivity|eauto].
  - intros p h (o & E & Hp). cbn in E. apply lookup_insert_is_Some'. apply lookup_insert_Some in E as [[<- <-]|[_ E]].
    + right. apply Hin. rewrite <- P. exact Hp.
    + right. eapply B. exists o. eauto.
  - intros h h' o o' E E' Z Z'. cbn in E, E'. assert (Zh : forall x, so_op op = x -> op_preds x <> ∅).
    { intros x <-. rewrite P. apply heads_nonempty, R. }
    apply lookup_insert_Some in E as [[<- <-]|[_ E]]; [exfalso; exact (Zh _ eq_refl Z)|].
    apply lookup_insert_Some in E' as [[<- <-]|[_ E']]; [exfalso; exact (Zh _ eq_refl Z')|]. eapply C; eauto.
  - intros h o p q E Hp Hq Bf. cbn in E. apply lookup_insert_Some in E as [[<- <-]|[_ E]].
    + rewrite P in Hp, Hq. apply Old in Bf; [|apply Hin, Hq].
      (* the path lies inside [g] *)
      assert (In : before g p q).
      { apply (gi_heads _ V) in Hq as [Kq _]. clear -Bf Kq V Sub. induction Bf as [x y (o & Eo & Hp)|x y z (o & Eo & Hp) Bf IH].
        - destruct Kq as [o' Eo']. apply tc_once. exists o'. split; [exact Eo'|]. cbn in Eo. rewrite (lookup_weaken _ _ _ _ Eo' Sub) in Eo. injection Eo as <-. exact Hp.
        - specialize (IH Kq). assert (Ky : is_Some (g_ops g !! y)).
          { destruct IH as [a b Q|a b c Q _]; eapply (gi_closed _ V); exact Q. }
          destruct Ky as [o' Eo']. eapply tc_l; [|exact IH]. exists o'. split; [exact Eo'|]. cbn in Eo. rewrite (lookup_weaken _ _ _ _ Eo' Sub) in Eo. injection Eo as <-. exact Hp. }
      apply (gi_heads _ V) in Hp as [_ NPp]. destruct In as [a b Q|a b c Q _]; eapply NPp; exact Q.
    + assert (Kq : is_Some (ops !! q)) by (apply (B q h); exists o; auto).
      eapply (D h o p q E Hp Hq). apply Old; assumption.
Qed.

Lemma union_absorb {A} (m m' : gmap digest A) : m' ⊆ m -> m ∪ m' = m.
Proof.
  intros S. apply map_eq. intros x. rewrite lookup_union. destruct (m !! x) eqn:E; [destruct (m' !! x); reflexivity|].
  destruct (m' !! x) eqn:E'; [|reflexivity]. rewrite (lookup_weaken _ _ _ _ E' S) in E. discriminate.
Qed.

Section net.
Context (horder : nat -> gset digest -> list digest).
Context (rorder : nat -> gset (member_id * nat) -> list (member_id * nat)).
Context (HH : forall r, some_order (horder r)) (HR : forall r, some_order (rorder r)).

Record net_ok (n : network) : Prop := {
  no_ops : ops_ok (n_ops n);
  no_reach r c : n_reps n !! r = Some c -> cgka_reachable (horder r) (rorder r) c;
  no_sub r c : n_reps n !! r = Some c -> g_ops (c_graph c) ⊆ n_ops n
}.

(** The steps of a replica in a network, and what they do to its graph. *)
Inductive rep_graph_step (ops : gmap digest signed_op) (r : nat) (c c' : cgka) : Prop :=
| rg_same : g_ops (c_graph c') = g_ops (c_graph c) -> rep_graph_step ops r c c'
| rg_made op : ops !! so_hash op = None -> op_preds (so_op op) = g_heads (c_graph c) ->
    g_ops (c_graph c') = <[so_hash op := op]> (g_ops (c_graph c)) -> rep_graph_step ops r c c'
| rg_got op : ops !! so_hash op = Some op -> g_ops (c_graph c') = <[so_hash op := op]> (g_ops (c_graph c)) -> rep_graph_step ops r c c'.

Lemma local_graph_step ops r c c' h : ops !! h = None ->
  (exists op, so_hash op = h /\ op_preds (so_op op) = list_to_set (horder r (g_heads (c_graph c))) /\ c_graph c' = add_local_op (c_graph c) op) \/ c_graph c' = c_graph c ->
  rep_graph_step ops r c c'.
Proof.
  intros N [(op & <- & P & G)|G].
  - apply (rg_made _ _ _ _ op); [exact N|rewrite P; apply horder_set, HH|rewrite G; reflexivity].
  - apply rg_same. rewrite G. reflexivity.
Qed.

Lemma cgka_add_graph ho ro c id pk h c' x : cgka_add ho ro c id pk h = (c', x) ->
  (exists op, so_hash op = h /\ op_preds (so_op op) = list_to_set (ho (g_heads (c_graph c))) /\ c_graph c' = add_local_op (c_graph c) op) \/ c_graph c' = c_graph c.
Proof.
  unfold cgka_add. destruct (contains_id _ _); [intros Q; injection Q as <- <-; auto|].
  destruct (maybe_replay ho ro c) as [c1|e| |] eqn:Em; intros Q; [|injection Q as <- <-; auto..].
  apply maybe_replay_graph in Em as (G & _). destruct (push_leaf _ _ _) as [[t i]|e| |]; injection Q as <- <-; auto.
  left. cbn [c_graph set_graph set_tree set_sks insert_pcs_key]. rewrite G. eexists. split; [|split; [|reflexivity]]; reflexivity.
Qed.
Lemma cgka_remove_graph ho ro c id h c' x : cgka_remove ho ro c id h = (c', x) ->
  (exists op, so_hash op = h /\ op_preds (so_op op) = list_to_set (ho (g_heads (c_graph c))) /\ c_graph c' = add_local_op (c_graph c) op) \/ c_graph c' = c_graph c.
Proof.
  unfold cgka_remove. destruct (negb _); [intros Q; injection Q as <- <-; auto|].
  destruct (maybe_replay ho ro c) as [c1|e| |] eqn:Em; intros Q; [|injection Q as <- <-; auto..].
  apply maybe_replay_graph in Em as (G & _). destruct (_ =? 1); [injection Q as <- <-; auto|].
  destruct (remove_id _ _) as [[t [i ks]]|e| |]; injection Q as <- <-; auto.
  left. cbn [c_graph set_graph set_tree set_sks insert_pcs_key]. rewrite G. eexists. split; [|split; [|reflexivity]]; reflexivity.
Qed.
Lemma cgka_update_graph ho ro c sk h rng c' x : cgka_update ho ro c sk h rng = (c', x) ->
  (exists op, so_hash op = h /\ op_preds (so_op op) = list_to_set (ho (g_heads (c_graph c))) /\ c_graph c' = add_local_op (c_graph c) op) \/ c_graph c' = c_graph c.
Proof.
  unfold cgka_update. destruct (maybe_replay ho ro c) as [c1|e| |] eqn:Em; intros Q; [|injection Q as <- <-; auto..].
  apply maybe_replay_graph in Em as (G & _).
  destruct (update_identity _ _ _) as [[[id pk] sk']|e| |]; [|injection Q as <- <-; cbn; auto..].
  destruct (encrypt_path _ _ _ _ _) as [[[[[t k] path] sks] rng']|e| |]; injection Q as <- <-; auto.
  left. cbn [c_graph set_graph set_tree set_sks insert_pcs_key]. rewrite G. eexists. split; [|split; [|reflexivity]]; reflexivity.
Qed.
Lemma new_app_secret_graph ho ro c ref content preds sk h rng c' x : new_app_secret_for ho ro c ref content preds sk h rng = (c', x) ->
  (exists op, so_hash op = h /\ op_preds (so_op op) = list_to_set (ho (g_heads (c_graph c))) /\ c_graph c' = add_local_op (c_graph c) op) \/ c_graph c' = c_graph c.
Proof.
  unfold new_app_secret_for. destruct (has_pcs_key c) as [[]|e| |].
  3-5: intros Q; injection Q as <- <-; auto.
  - destruct (pcs_key_from_tree_root c) as [c1 r1] eqn:Er. apply root_graph in Er as [sks ->].
    destruct r1 as [k|e| |]; [|intros Q; injection Q as <- <-; auto..].
    destruct (c_pcs _ !! _); [|destruct (ho _)]; destruct (c_pcs_ops _ !! _); intros Q; injection Q as <- <-; auto.
  - destruct (cgka_update _ _ _ _ _ _) as [c1 r1] eqn:Eu. apply cgka_update_graph in Eu.
    destruct r1 as [[[k op] rng']|e| |]; [|intros Q; injection Q as <- <-; auto..].
    destruct (c_pcs_ops _ !! _); intros Q; injection Q as <- <-; exact Eu.
Qed.
Lemma derive_graph ro c1 c2 h r : derive_pcs_key_for_op ro c1 h = (c2, r) ->
  c_graph c2 = c_graph c1 /\ c_tree c2 = c_tree c1 /\ c_sks c2 = c_sks c1 /\ c_owner c2 = c_owner c1.
Proof.
  intros D. unfold derive_pcs_key_for_op in D. destruct (negb _); [injection D as <- <-; auto|].
  destruct (topsort_for_heads _ _); [|injection D as <- <-; auto..].
  unfold rebuild_pcs_key in D. destruct (rbind _ _); [|injection D as <- <-; auto..].
  destruct (last_first _); injection D as <- <-; auto.
Qed.
Lemma decryption_graph ro c e c' x : decryption_key_for ro c e = (c', x) -> c_graph c' = c_graph c /\ c_tree c' = c_tree c.
Proof.
  assert (PG : forall c2 r, pcs_key_from_hashes ro c (ec_pcs e) (ec_op e) = (c2, r) -> c_graph c2 = c_graph c /\ c_tree c2 = c_tree c).
  { intros c2 r2. unfold pcs_key_from_hashes. destruct (c_pcs c !! _); [intros D; injection D as <- <-; auto|].
    destruct (has_pcs_key c) as [[]|er| |]; try (intros D; injection D as <- <-; auto; fail); [|intros D; apply derive_graph in D; tauto].
    destruct (pcs_key_from_tree_root c) as [c1 r1] eqn:Er. apply root_graph in Er as [sks ->].
    destruct r1; try (intros D; injection D as <- <-; auto; fail); [|intros D; apply derive_graph in D; cbn in D; tauto].
    destruct (_ =? _); [intros D; injection D as <- <-; auto|intros D; apply derive_graph in D; cbn in D; tauto]. }
  unfold decryption_key_for. destruct (pcs_key_from_hashes _ _ _ _) as [c1 r1] eqn:Ep. destruct (PG _ _ eq_refl) as [A B].
  destruct r1 as [k|er| |]; [|intros Q; injection Q as <- <-; auto..].
  destruct (c_pcs c1 !! _); intros Q; injection Q as <- <-; cbn; auto.
Qed.

(** A network step moves one replica (or adds one). *)
Inductive net_moves (n n' : network) : Prop :=
| nm_join r id pk h c : n_ops n !! h = Some (SignedOp h (init_add id pk)) -> cgka_from_init id pk (SignedOp h (init_add id pk)) = Ok c ->
    n_reps n' = <[r := c]> (n_reps n) -> n_ops n' = n_ops n ∪ g_ops (c_graph c) -> net_moves n n'
| nm_step r c c' : n_reps n !! r = Some c -> cgka_step (horder r) (rorder r) c c' -> rep_graph_step (n_ops n) r c c' ->
    n_reps n' = <[r := c']> (n_reps n) -> n_ops n' = n_ops n ∪ g_ops (c_graph c') -> net_moves n n'.

Lemma net_step_moves n n' : net_ok n -> net_step horder rorder n n' -> net_moves n n'.
Proof.
  intros K S.
  assert (Fr : forall r c h, n_reps n !! r = Some c -> n_ops n !! h = None -> contains_op (c_graph c) h = false).
  { intros r c h E N. apply contains_op_false. apply (no_sub _ K) in E. destruct (g_ops (c_graph c) !! h) eqn:Q; [|reflexivity].
    rewrite (lookup_weaken _ _ _ _ Q E) in N. discriminate. }
  destruct S as [r id pk h c N E Ec|r c id sks E G|r c c' id pk h x E N Q|r c c' id h x E N Q|r c c' sk h rng x E N Q|r c c' h op x E N Q|r c c' ref content preds sk h rng s o E N Q|r c c' ref content preds sk h rng x E N Q _|r c c' e x E N Q].
  - eapply nm_join; [exact E|exact Ec|reflexivity|reflexivity].
  - eapply nm_step; [exact E|eapply st_owner; reflexivity|apply rg_same; reflexivity|reflexivity|reflexivity].
  - eapply nm_step; [exact E|eapply st_add; eauto| |reflexivity|reflexivity]. eapply local_graph_step; [exact N|]. eapply cgka_add_graph; exact Q.
  - eapply nm_step; [exact E|eapply st_remove; eauto| |reflexivity|reflexivity]. eapply local_graph_step; [exact N|]. eapply cgka_remove_graph; exact Q.
  - eapply nm_step; [exact E|eapply st_update; eauto| |reflexivity|reflexivity]. eapply local_graph_step; [exact N|]. eapply cgka_update_graph; exact Q.
  - eapply nm_step; [exact E|eapply st_receive; eauto| |reflexivity|reflexivity].
    assert (so_hash op = h) by (eapply (oo_hash _ (no_ops _ K)); eauto). subst h.
    apply merge_step in Q as (_ & _ & _ & [(_ & -> & _)|[(_ & _ & -> & _)|(_ & _ & [[_ G]|[_ G]])]]).
    + apply rg_same; reflexivity.
    + apply rg_same; reflexivity.
    + eapply rg_got; [exact N|rewrite G; reflexivity].
    + apply rg_same. rewrite G. reflexivity.
  - eapply nm_step; [exact E|eapply st_encrypt; eauto| |reflexivity|reflexivity]. eapply local_graph_step; [exact N|]. eapply new_app_secret_graph; exact Q.
  - eapply nm_step; [exact E|eapply st_encrypt; eauto| |reflexivity|reflexivity]. eapply local_graph_step; [exact N|]. eapply new_app_secret_graph; exact Q.
  - eapply nm_step; [exact E|eapply st_decrypt; eauto| |reflexivity|reflexivity]. apply rg_same. apply decryption_graph in Q as [-> _]. reflexivity.
Qed.

Lemma init_graph id pk h c : cgka_from_init id pk (SignedOp h (init_add id pk)) = Ok c -> g_ops (c_graph c) = {[ h := SignedOp h (init_add id pk) ]}.
Proof. unfold cgka_from_init. intros E. apply rbind_ok in E as (t & _ & E). injection E as <-. reflexivity. Qed.

Lemma net_reachable_ok n : net_reachable horder rorder n -> net_ok n.
Proof.
  intros R. induction R as [r id pk h c E|n n' R IH S].
  - constructor; cbn.
    + constructor; cbn.
      * intros x o Q. apply lookup_singleton_Some in Q as [<- <-]. reflexivity.
      * intros p x (o & Q & Hp). cbn in Q. apply lookup_singleton_Some in Q as [<- <-]. cbn in Hp. set_solver.
      * intros x x' o o' Q Q' _ _. cbn in Q, Q'. apply lookup_singleton_Some in Q as [<- _]. apply lookup_singleton_Some in Q' as [<- _]. reflexivity.
      * intros x o p q Q Hp. cbn in Q. apply lookup_singleton_Some in Q as [<- <-]. cbn in Hp. set_solver.
    + intros r' c' Q. apply lookup_singleton_Some in Q as [<- <-]. eapply cr_new; exact E.
    + intros r' c' Q. apply lookup_singleton_Some in Q as [<- <-]. rewrite (init_graph _ _ _ _ E). reflexivity.
  - apply (net_step_moves _ _ IH) in S. destruct IH as [A B C].
    destruct S as [r id pk h c Eh Ec ER EO|r c c' Er St G ER EO].
    + assert (EO' : n_ops n' = n_ops n).
      { rewrite EO, (init_graph _ _ _ _ Ec). apply map_eq. intros x. rewrite lookup_union. destruct (decide (x = h)) as [->|N].
        - rewrite Eh, lookup_singleton. reflexivity.
        - rewrite lookup_singleton_ne by auto. destruct (n_ops n !! x); reflexivity. }
      constructor.
      * rewrite EO'. exact A.
      * intros r' c' Q. rewrite ER in Q. apply lookup_insert_Some in Q as [[<- <-]|[_ Q]]; [eapply cr_new; exact Ec|eauto].
      * rewrite EO'. intros r' c' Q. rewrite ER in Q. apply lookup_insert_Some in Q as [[<- <-]|[_ Q]]; [|eauto].
        rewrite (init_graph _ _ _ _ Ec). apply map_singleton_subseteq_l. exact Eh.
    + assert (Rc' : cgka_reachable (horder r) (rorder r) c') by (eapply cr_step; [eauto|exact St]).
      assert (Sub : n_ops n ⊆ n_ops n' /\ g_ops (c_graph c') ⊆ n_ops n' /\ ops_ok (n_ops n')).
      { pose proof (C _ _ Er) as Sc. destruct G as [G|op N P G|op N G]; rewrite G in *.
        - assert (EO' : n_ops n' = n_ops n) by (rewrite EO; apply union_absorb; exact Sc).
          rewrite EO'. auto.
        - assert (EO' : n_ops n' = <[so_hash op := op]> (n_ops n)).
          { rewrite EO. apply map_eq. intros x. rewrite lookup_union. destruct (decide (x = so_hash op)) as [->|Nx].
            - rewrite N, !lookup_insert. reflexivity.
            - rewrite !lookup_insert_ne by auto. destruct (n_ops n !! x) eqn:Q; [destruct (g_ops _ !! x); reflexivity|].
              destruct (g_ops (c_graph c) !! x) eqn:Q'; [|reflexivity]. rewrite (lookup_weaken _ _ _ _ Q' Sc) in Q. discriminate. }
          rewrite EO'. split; [apply insert_subseteq, N|]. split; [apply insert_mono, Sc|].
          eapply ops_ok_insert; [exact A| |exact Sc|exact N|exact P]. eapply cgka_graph_reachable; [apply HH|eauto].
        - assert (Si : <[so_hash op := op]> (g_ops (c_graph c)) ⊆ n_ops n).
          { apply map_subseteq_spec. intros x o Q. apply lookup_insert_Some in Q as [[<- <-]|[_ Q]]; [exact N|]. eapply lookup_weaken; eauto. }
          assert (EO' : n_ops n' = n_ops n) by (rewrite EO; apply union_absorb; exact Si).
          rewrite EO'. auto. }
      destruct Sub as (S1 & S2 & S3). constructor.
      * exact S3.
      * intros r' d Q. rewrite ER in Q. apply lookup_insert_Some in Q as [[<- <-]|[_ Q]]; [exact Rc'|eauto].
      * intros r' d Q. rewrite ER in Q. apply lookup_insert_Some in Q as [[<- <-]|[_ Q]]; [exact S2|]. transitivity (n_ops n); [eapply C; exact Q|exact S1].
Qed.

Lemma net_converge_lemma n r r' c c' : net_reachable horder rorder n -> n_reps n !! r = Some c -> n_reps n !! r' = Some c' ->
  g_ops (c_graph c) = g_ops (c_graph c') -> has_single_head (c_graph c) = true -> c_tree c = c_tree c'.
Proof.
  intros R E E' Eo H1. apply net_reachable_ok in R as [[A B C D] Re Su].
  eapply (quiescent_agree_lemma (horder r) (rorder r) (horder r') (rorder r')); eauto.
  - eapply single_root_mono; [|exact C]. cbn. eauto.
  - eapply unordered_mono; [|exact D]. cbn. eauto.
Qed.
End net.
