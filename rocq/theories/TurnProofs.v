(** Networks in which operations are made in turn: all replicas have a prefix of one line. *)
From Coq Require Import Arith Lia.
From stdpp Require Import base list gmap relations.
From Verif Require Import ResModel KeysModel TreeMathModel TreeModel TreeSpec TreeOps TreeProofs TreeInv TreeRun TreePropsProofs TurnTree OpsModel OpsSpec OpsInv OpsProofs OpsEpochs OpsPropsProofs OpsExtend
  CgkaModel CgkaSpec CgkaProofs CgkaReplay CgkaConverge CgkaSound NetSpec NetProofs NetKeys NetAgree NetInv DocKeys TurnSpec TurnLine TurnCalls.

(** The invariant. *)
Record turn_good (id : member_id) (pk : share_key) (L : list signed_op) (n : network) : Prop := {
  tg_line : exists G T ops pcs, line id pk L G T ops pcs /\ n_ops n = g_ops G;
  tg_rep r c : n_reps n !! r = Some c -> exists l rest, L = l ++ rest /\ has_line id pk l c;
  tg_made o m pc ps : o ∈ L -> so_op o = CUpdate m pc ps -> m = public_id \/
    exists r c p, n_reps n !! r = Some c /\ c_owner c = m /\ pc_leaf_pk pc = SKey p /\ is_Some (c_sks c !! p)
}.
Lemma prefix_sub id pk L l rest G T ops pcs c : line id pk L G T ops pcs -> L = l ++ rest -> has_line id pk l c -> g_ops (c_graph c) ⊆ g_ops G.
Proof.
  intros LL -> (ops0 & pcs0 & L0 & _). apply map_subseteq_spec. intros h o E. apply (line_ops _ _ _ _ _ _ _ L0) in E as [E1 E2].
  apply (line_ops _ _ _ _ _ _ _ LL). split; [set_solver|exact E2].
Qed.
Lemma informed_all id pk L n l rest c : turn_good id pk L n -> L = l ++ rest -> has_line id pk l c -> informed n c -> l = L.
Proof.
  intros [(G & T & ops & pcs & LL & En) _ _] -> (ops0 & pcs0 & L0 & _) I. destruct rest as [|o rest]; [rewrite app_nil_r; reflexivity|]. exfalso.
  assert (E : g_ops (c_graph c) !! so_hash o = Some o) by (rewrite I, En; apply (line_ops _ _ _ _ _ _ _ LL); set_solver).
  apply (line_ops _ _ _ _ _ _ _ L0) in E as [E _]. pose proof (line_nodup _ _ _ _ _ _ _ LL) as ND. rewrite map_app in ND. apply NoDup_app in ND as (_ & ND & _).
  eapply ND; [apply elem_of_list_fmap; eauto|]. cbn. set_solver.
Qed.
Lemma all_informed id pk L n c : turn_good id pk L n -> has_line id pk L c -> informed n c.
Proof.
  intros [(G & T & ops & pcs & LL & En) _ _] (ops0 & pcs0 & L0 & _). unfold informed. rewrite En. destruct (line_det _ _ _ _ _ _ _ _ _ _ _ LL L0) as [-> _]. reflexivity.
Qed.

Lemma moved_prefix id pk L n r l rest c' : turn_good id pk L n -> L = l ++ rest -> has_line id pk l c' ->
  (forall c, n_reps n !! r = Some c -> c_owner c' = c_owner c /\ keeps (c_sks c) (c_sks c')) -> turn_good id pk L (moved n r c').
Proof.
  intros [(G & T & ops & pcs & LL & En) B C] EL H K. split; cbn.
  - exists G, T, ops, pcs. split; [exact LL|]. rewrite En. apply union_absorb. eapply prefix_sub; eauto.
  - intros r' c. rewrite lookup_insert_Some. intros [[<- <-]|[_ E]]; eauto.
  - intros o m pc ps Ho Eo. destruct (C _ _ _ _ Ho Eo) as [->|(r' & c & p & E1 & E2 & E3 & E4)]; [auto|]. right.
    destruct (decide (r' = r)) as [->|N].
    + destruct (K _ E1) as [K1 K2]. exists r, c', p. rewrite lookup_insert. split; [reflexivity|]. split; [congruence|]. split; [exact E3|]. apply K2, E4.
    + exists r', c, p. rewrite lookup_insert_ne by auto. auto.
Qed.
Lemma moved_grown id pk L n r c c' h o : turn_good id pk L n -> n_reps n !! r = Some c -> grown id pk L h c c' o -> turn_good id pk (L ++ [o]) (moved n r c').
Proof.
  intros TG E [H1 H2 H3 H4 H5]. pose proof TG as [(G & T & ops & pcs & LL & En) B C]. split; cbn.
  - destruct H1 as (ops1 & pcs1 & L1 & _). do 4 eexists. split; [exact L1|]. rewrite En. apply map_subseteq_union.
    apply map_subseteq_spec. intros y p Ep. apply (line_ops _ _ _ _ _ _ _ LL) in Ep as [E1 E2]. apply (line_ops _ _ _ _ _ _ _ L1). split; [set_solver|exact E2].
  - intros r' d. rewrite lookup_insert_Some. intros [[<- <-]|[_ Ed]].
    + exists (L ++ [o]), []. rewrite app_nil_r. auto.
    + destruct (B _ _ Ed) as (l & rest & -> & Hl). exists l, (rest ++ [o]). rewrite app_assoc. auto.
  - intros o' m pc ps Ho Eo. apply elem_of_app in Ho as [Ho|Ho].
    + destruct (C _ _ _ _ Ho Eo) as [->|(r' & d & p & E1 & E2 & E3 & E4)]; [auto|]. right. destruct (decide (r' = r)) as [->|N].
      * rewrite E in E1. injection E1 as <-. exists r, c', p. rewrite lookup_insert. split; [reflexivity|]. split; [congruence|]. split; [exact E3|]. apply H4, E4.
      * exists r', d, p. rewrite lookup_insert_ne by auto. auto.
    + apply elem_of_list_singleton in Ho as ->. destruct (H5 _ _ _ Eo) as [[-> | ->] (p & P1 & P2)]; [|auto]. right. exists r, c', p. rewrite lookup_insert. auto.
Qed.
Lemma sent_good id pk L n cts : turn_good id pk L n -> turn_good id pk L (sent n cts).
Proof. intros [A B C]. split; cbn; assumption. Qed.

Lemma join_line id pk h c me sks : cgka_from_init id pk (SignedOp h (init_add id pk)) = Ok c -> has_line id pk [SignedOp h (init_add id pk)] (with_new_owner c me sks).
Proof.
  unfold cgka_from_init. intros E. apply rbind_ok in E as (t & Et & E). injection E as <-. exists [], []. cbn. split; [apply ln_first, Et|]. auto.
Qed.
Lemma moved_twice n r c c' : g_ops (c_graph c) ⊆ n_ops n \/ g_ops (c_graph c) = g_ops (c_graph c') -> moved (moved n r c) r c' = moved n r c'.
Proof.
  intros E. unfold moved. cbn. rewrite insert_insert. f_equal. destruct E as [E| ->]; [rewrite (union_absorb _ _ E); reflexivity|].
  rewrite <- (assoc_L (∪)). f_equal. apply union_absorb. reflexivity.
Qed.

Section turns.
Context (horder : nat -> gset digest -> list digest).
Context (rorder : nat -> gset (member_id * nat) -> list (member_id * nat)).
Context (HH : forall r, some_order (horder r)) (HR : forall r, some_order (rorder r)).
Notation turns := (turns horder rorder).
Notation turn_step := (turn_step horder rorder).

(** Every run is a run of the network. *)
Lemma turns_net n : turns n -> net_reachable horder rorder n.
Proof.
  induction 1 as [r id pk h c sks E GS|n n' R IH S].
  - pose proof (nr_start horder rorder r id pk h c E) as R0. pose proof (init_graph _ _ _ _ E) as Eg.
    assert (E1 : n_reps (Net {[r := c]} {[h := SignedOp h (init_add id pk)]} []) !! r = Some c) by apply lookup_singleton.
    pose proof (nr_step horder rorder _ _ R0 (ns_owner horder rorder _ r c id sks E1 GS)) as R1. unfold moved in R1. cbn in R1.
    rewrite insert_singleton, Eg, union_absorb in R1 by reflexivity. exact R1.
  - destruct S as [r id pk h c me sks N E E0 GS|r c s E|r c c' id pk h x E I N Q|r c c' id h x E I N Q|r c c' sk h rng x E I N Q|r c c' h op x E Eo Q|r c c' ref content preds sk h rng s o E I N Q|r c c' ref content preds sk h rng x E I N Q X|r c c' e x E He Q].
    + pose proof (nr_step _ _ _ _ IH (ns_join horder rorder n r id pk h c N E E0)) as R1.
      assert (E1 : n_reps (moved n r c) !! r = Some c) by apply lookup_insert.
      pose proof (nr_step _ _ _ _ R1 (ns_owner horder rorder _ r c me sks E1 GS)) as R2.
      rewrite moved_twice in R2 by (right; reflexivity). exact R2.
    + eapply nr_step; [exact IH|]. apply ns_owner; [exact E|]. apply net_reachable_good in IH as G; [|exact HH|exact HR].
      pose proof (lg_sks _ (ng_local _ _ _ G _ _ E)) as GS. intros p y. rewrite lookup_insert_Some. intros [[<- <-]|[_ Y]]; [reflexivity|]. apply GS, Y.
    + eapply nr_step; [exact IH|]. eapply ns_add; eauto.
    + eapply nr_step; [exact IH|]. eapply ns_remove; eauto.
    + eapply nr_step; [exact IH|]. eapply ns_update; eauto.
    + eapply nr_step; [exact IH|]. eapply ns_receive; eauto.
    + eapply nr_step; [exact IH|]. eapply ns_encrypt; eauto.
    + eapply nr_step; [exact IH|]. eapply ns_encrypt_fail; eauto.
    + eapply nr_step; [exact IH|]. eapply ns_decrypt; eauto.
Qed.

Lemma turns_good n : turns n -> exists id pk L, turn_good id pk L n.
Proof.
  induction 1 as [r id pk h c sks E GS|n n' R IH S].
  - exists id, pk, [SignedOp h (init_add id pk)]. pose proof (join_line _ _ _ _ id sks E) as J. pose proof J as (ops & pcs & L0 & _). split; cbn.
    + do 4 eexists. split; [exact L0|]. cbn. rewrite (init_graph _ _ _ _ E). reflexivity.
    + intros r' c'. rewrite lookup_singleton_Some. intros [<- <-]. eexists _, []. rewrite app_nil_r. eauto.
    + intros o m pc ps Ho Eo. apply elem_of_list_singleton in Ho as ->. discriminate Eo.
  - pose proof (turns_net _ R) as NR. pose proof (net_reachable_good horder rorder HH HR _ NR) as NG. destruct IH as (id & pk & L & TG). exists id, pk. pose proof TG as [(G & T & ops & pcs & LL & En) B C].
    assert (GSK : forall r c, n_reps n !! r = Some c -> good_sks (c_sks c)) by (intros r c E; exact (lg_sks _ (ng_local _ _ _ NG _ _ E))).
    assert (FR : forall r c h, n_reps n !! r = Some c -> n_ops n !! h = None -> g_ops (c_graph c) !! h = None).
    { intros r c h E N. eapply lookup_weaken_None; [exact N|]. exact (no_sub _ _ _ (ng_ok _ _ _ NG) _ _ E). }
    assert (QU : forall r c c', n_reps n !! r = Some c -> quiet c c' -> exists L', turn_good id pk L' (moved n r c')).
    { intros r c c' E Q. exists L. destruct (B _ _ E) as (l & rest & EL & Hl). eapply moved_prefix; [exact TG|exact EL|eapply quiet_line; eauto|].
      intros d Ed. rewrite E in Ed. injection Ed as <-. split; apply Q. }
    assert (GR : forall r c c' l h o rest, n_reps n !! r = Some c -> L = l ++ rest -> has_line id pk l c -> informed n c -> grown id pk l h c c' o -> exists L', turn_good id pk L' (moved n r c')).
    { intros r c c' l h o rest E EL Hl I Gr. rewrite (informed_all _ _ _ _ _ _ _ TG EL Hl I) in Gr. exists (L ++ [o]). eapply moved_grown; eauto. }
    destruct S as [r id' pk' h c me sks N E E0 GS|r c s E|r c c' i p h x E I N Q|r c c' i h x E I N Q|r c c' sk h rng x E I N Q|r c c' h op x E Eo Q|r c c' ref content preds sk h rng s o E I N Q|r c c' ref content preds sk h rng x E I N Q X|r c c' e x E He Q].
    + exists L. destruct (line_first _ _ _ _ _ _ _ LL) as (h0 & rest & EL).
      assert (Hh : h = h0).
      { rewrite En in E. eapply (line_root _ _ _ _ _ _ _ LL h h0 _ (SignedOp h0 (init_add id pk))); [exact E| |reflexivity|reflexivity]. apply (line_ops _ _ _ _ _ _ _ LL). rewrite EL. split; [set_solver|reflexivity]. }
      subst h0. assert (E1 : g_ops G !! h = Some (SignedOp h (init_add id pk))) by (apply (line_ops _ _ _ _ _ _ _ LL); rewrite EL; split; [set_solver|reflexivity]).
      rewrite En, E1 in E. injection E as Ei Ep. subst id' pk'. apply (moved_prefix _ _ _ _ _ [SignedOp h (init_add id pk)] rest); [exact TG|exact EL|eapply join_line; exact E0|].
      intros d Ed. congruence.
    + destruct (B _ _ E) as (l & rest & EL & Hl). exists L. eapply moved_prefix; [exact TG|exact EL|exact Hl|]. intros d Ed. rewrite E in Ed. injection Ed as <-. split; [reflexivity|apply keeps_insert].
    + destruct (B _ _ E) as (l & rest & EL & Hl). destruct (add_line _ _ (HH r) _ _ _ _ _ _ _ _ _ Hl (FR _ _ _ E N) Q) as [[-> _]|(o & _ & Gr)]; [eapply QU; [exact E|apply quiet_refl]|eauto].
    + destruct (B _ _ E) as (l & rest & EL & Hl). destruct (remove_line _ _ (HH r) _ _ _ _ _ _ _ _ Hl (FR _ _ _ E N) Q) as [[-> _]|(o & _ & Gr)]; [eapply QU; [exact E|apply quiet_refl]|eauto].
    + destruct (B _ _ E) as (l & rest & EL & Hl). destruct (update_line _ _ (HH r) _ _ _ _ _ _ _ _ _ Hl (GSK _ _ E) (FR _ _ _ E N) Q) as [[Qu _]|(k & o & rest' & _ & Gr)]; [eapply QU; eauto|eauto].
    + destruct (B _ _ E) as (l & rest & EL & Hl). rewrite En in Eo. apply (line_ops _ _ _ _ _ _ _ LL) in Eo as [Eo _]. destruct rest as [|o rest].
      * rewrite app_nil_r in EL. subst l. assert (c' = c) as ->.
        { destruct Hl as (ops0 & pcs0 & L0 & _). unfold merge_concurrent_operation in Q. rewrite (proj2 (contains_some _ _)) in Q; [injection Q as <- _; reflexivity|].
          exists op. apply (line_ops _ _ _ _ _ _ _ L0). auto. }
        eapply QU; [exact E|apply quiet_refl].
      * rewrite EL in Eo, LL. destruct (receive_line _ _ _ _ _ _ _ _ _ _ _ _ _ _ _ LL Hl Eo Q) as [(_ & -> & _)|[(-> & _ & H1 & H2 & H3)|(_ & -> & _)]]; try (eapply QU; [exact E|apply quiet_refl]).
        exists L. apply (moved_prefix _ _ _ _ _ (l ++ [o]) rest); [exact TG|rewrite <- app_assoc; exact EL|exact H1|]. intros d Ed. rewrite E in Ed. injection Ed as <-. rewrite H3. split; [exact H2|apply keeps_refl].
    + destruct (B _ _ E) as (l & rest & EL & Hl). destruct (secret_line _ _ (HH r) _ _ _ _ _ _ _ _ _ _ _ _ Hl (GSK _ _ E) (FR _ _ _ E N) Q) as [Qu|[P (o' & Gr)]].
      * destruct (QU _ _ _ E Qu) as [L' TG']. exists L'. apply sent_good, TG'.
      * destruct I as [I|I]; [|congruence]. destruct (GR _ _ _ _ _ _ _ E EL Hl I Gr) as [L' TG']. exists L'. apply sent_good, TG'.
    + destruct (B _ _ E) as (l & rest & EL & Hl). destruct (secret_line _ _ (HH r) _ _ _ _ _ _ _ _ _ _ _ _ Hl (GSK _ _ E) (FR _ _ _ E N) Q) as [Qu|[P (o' & Gr)]].
      * eauto.
      * destruct I as [I|I]; [|congruence]. eauto.
    + eapply QU; [exact E|]. eapply decryption_quiet; exact Q.
Qed.
End turns.
