(** The network invariant and its consequences for keys and contents. *)
From Coq Require Import Arith Lia.
From stdpp Require Import base list gmap relations.
From Verif Require Import ResModel KeysModel TreeMathModel TreeModel OpsModel OpsSpec OpsInv OpsProofs OpsEpochs OpsPropsProofs OpsExtend
  CgkaModel CgkaSpec CgkaProofs CgkaReplay CgkaConverge CgkaSound NetSpec NetProofs NetKeys NetAgree.

Section net.
Context (horder : nat -> gset digest -> list digest).
Context (rorder : nat -> gset (member_id * nat) -> list (member_id * nat)).
Context (HH : forall r, some_order (horder r)) (HR : forall r, some_order (rorder r)).

Record net_good (n : network) : Prop := {
  ng_ok : net_ok horder rorder n;
  ng_sound h o : n_ops n !! h = Some o -> sound_op (so_op o);
  ng_made : all_made (n_ops n);
  ng_local r c : n_reps n !! r = Some c -> local_good c;
  ng_keys r c : n_reps n !! r = Some c -> keys_good (n_ops n) c;
  ng_cts e : e ∈ n_cts n -> honest_content (n_ops n) e
}.

(** What a step does to the replica it moves. *)
Lemma step_keys n n' : net_good n -> net_ok horder rorder n' -> net_step horder rorder n n' ->
  exists r c', n_reps n' = <[r := c']> (n_reps n) /\ n_ops n' = n_ops n ∪ g_ops (c_graph c') /\ local_good c' /\ keys_good (n_ops n') c' /\
    (forall c, n_reps n !! r = Some c -> c_pcs c ⊆ c_pcs c') /\
    forall e, e ∈ n_cts n' -> e ∈ n_cts n \/ honest_content (n_ops n') e.
Proof.
  intros [OK So M L K Ct] OK' S.
  assert (Mo : n_ops n ⊆ n_ops n').
  { destruct S; cbn; apply map_union_subseteq_l. }
  assert (KG : forall r c, n_reps n !! r = Some c -> keys_good (n_ops n') c) by (intros r c E; eapply keys_good_mono; eauto).
  assert (SR : forall r c, n_reps n !! r = Some c -> single_root (c_graph c)).
  { intros r c E. eapply single_root_mono; [|exact (oo_root _ (no_ops _ _ _ OK))]. apply (no_sub _ _ _ OK _ _ E). }
  assert (Same : forall r c c', n_reps n !! r = Some c -> c_pcs c' = c_pcs c -> c_pcs_ops c' = c_pcs_ops c -> local_good c' ->
    n_reps n' = <[r := c']> (n_reps n) -> n_ops n' = n_ops n ∪ g_ops (c_graph c') -> n_cts n' = n_cts n ->
    exists r c', n_reps n' = <[r := c']> (n_reps n) /\ n_ops n' = n_ops n ∪ g_ops (c_graph c') /\ local_good c' /\ keys_good (n_ops n') c' /\
    (forall c, n_reps n !! r = Some c -> c_pcs c ⊆ c_pcs c') /\
    forall e, e ∈ n_cts n' -> e ∈ n_cts n \/ honest_content (n_ops n') e).
  { intros r c c' E P1 P2 Lc' E1 E2 E3. exists r, c'. split; [exact E1|]. split; [exact E2|]. split; [exact Lc'|].
    split; [apply (keys_good_same (n_ops n') c); [exact P1|exact P2|apply (KG _ _ E)]|]. split.
    - intros d Ed. rewrite E in Ed. injection Ed as <-. rewrite P1. reflexivity.
    - rewrite E3. auto. }
  destruct S as [r id pk h c N E Ec|r c id sks E G|r c c' id pk h x E N Q|r c c' id h x E N Q|r c c' sk h rng x E N Q|r c c' h op x E N Q|r c c' ref content preds sk h rng s o E N Q|r c c' ref content preds sk h rng x E N Q Nx|r c c' e x E N Q].
  - exists r, c. split; [reflexivity|]. split; [reflexivity|].
    assert (c_sks c = ∅ /\ c_pcs c = ∅ /\ c_pcs_ops c = ∅) as (Z1 & Z2 & Z3).
    { unfold cgka_from_init in Ec. apply rbind_ok in Ec as (t & _ & Ec). injection Ec as <-. auto. }
    split; [constructor|split; [constructor|split]].
    + eapply good_init; exact Ec.
    + rewrite Z1. intros a b Q. rewrite lookup_empty in Q. discriminate.
    + rewrite (init_graph _ _ _ _ Ec). intros x o Q. apply lookup_singleton_Some in Q as [<- <-]. exact I.
    + rewrite Z2. intros a b Q. rewrite lookup_empty in Q. discriminate.
    + rewrite Z3. intros a b Q. rewrite lookup_empty in Q. discriminate.
    + intros d Q. congruence.
    + cbn. auto.
  - apply (Same r c (with_new_owner c id sks)); [exact E|reflexivity|reflexivity| |reflexivity|reflexivity|reflexivity]. destruct (L _ _ E) as [A B C]. constructor; [exact A|exact G|exact C].
  - apply (add_good (horder r) (rorder r) (HH r) (HR r)) in Q as (L1 & K1 & K2); [|apply (no_reach _ _ _ OK _ _ E)|eauto|eauto]. apply (Same r c c'); auto.
  - apply (remove_good (horder r) (rorder r) (HH r) (HR r)) in Q as (L1 & K1 & K2); [|apply (no_reach _ _ _ OK _ _ E)|eauto|eauto]. apply (Same r c c'); auto.
  - assert (Ec' : n_reps (moved n r c') !! r = Some c') by (cbn; apply lookup_insert).
    apply (update_good (horder r) (rorder r) (HH r) (HR r)) in Q as [L1 [(K1 & K2 & _)|(k & op & rng' & c1 & -> & Eop & -> & K1 & K2 & Ri & Hhd)]]; [| |apply (no_reach _ _ _ OK _ _ E)|eauto|eauto].
    + apply (Same r c c'); auto.
    + assert (KG1 : keys_good (n_ops (moved n r (insert_pcs_key c1 k h))) c1) by (apply (keys_good_same _ c); [exact K1|exact K2|apply (KG _ _ E)]).
      exists r, (insert_pcs_key c1 k h). split; [reflexivity|]. split; [reflexivity|]. split; [exact L1|]. split; [|split; [|cbn; auto]].
      * apply keys_good_insert; [exact KG1|].
        pose proof (no_sub _ _ _ OK' _ _ Ec') as Su. eapply epoch_key_mono; [exact Su|].
        eapply (head_epoch_key (horder r) (rorder r) (HH r) (HR r)); [apply (no_reach _ _ _ OK' _ _ Ec')| | |exact Hhd|exact Ri].
        -- eapply single_root_mono; [|exact (oo_root _ (no_ops _ _ _ OK'))]. exact Su.
        -- eapply unordered_mono; [|exact (oo_unordered _ (no_ops _ _ _ OK'))]. exact Su.
      * intros d Ed. rewrite E in Ed. injection Ed as <-. rewrite <- K1. eapply insert_pcs_mono; exact KG1.
  - apply (merge_good (horder r) (rorder r) (HH r) (HR r)) in Q as (L1 & K1 & K2); [|apply (no_reach _ _ _ OK _ _ E)|eauto|eauto|eapply So; exact N]. apply (Same r c c'); auto.
  - assert (Ec' : n_reps (sent (moved n r c') [app_encrypt s content]) !! r = Some c') by (cbn; apply lookup_insert).
    apply (new_app_secret_good (horder r) (rorder r) (HH r) (HR r) _ _ _ _ _ _ _ _ _ (n_ops (sent (moved n r c') [app_encrypt s content]))) in Q as (L1 & K1 & P1 & F);
      [|apply (no_reach _ _ _ OK _ _ E)|apply (no_reach _ _ _ OK' _ _ Ec')|eauto|transitivity (n_ops n); [apply (no_sub _ _ _ OK _ _ E)|exact Mo]|apply (no_sub _ _ _ OK' _ _ Ec')|apply (no_ops _ _ _ OK')|eauto].
    exists r, c'. split; [reflexivity|]. split; [reflexivity|]. split; [exact L1|]. split; [exact K1|].
    split; [intros d Ed; rewrite E in Ed; injection Ed as <-; exact P1|].
    intros e He. cbn [n_cts sent] in He. apply elem_of_cons in He as [->|He]; [right|left; exact He].
    destruct (F s o eq_refl) as (k & Ek & Ea & _ & Ep). subst k. constructor; [exact Ea|reflexivity|exact Ep].
  - assert (Ec' : n_reps (moved n r c') !! r = Some c') by (cbn; apply lookup_insert).
    apply (new_app_secret_good (horder r) (rorder r) (HH r) (HR r) _ _ _ _ _ _ _ _ _ (n_ops (moved n r c'))) in Q as (L1 & K1 & P1 & F);
      [|apply (no_reach _ _ _ OK _ _ E)|apply (no_reach _ _ _ OK' _ _ Ec')|eauto|transitivity (n_ops n); [apply (no_sub _ _ _ OK _ _ E)|exact Mo]|apply (no_sub _ _ _ OK' _ _ Ec')|apply (no_ops _ _ _ OK')|eauto].
    exists r, c'. split; [reflexivity|]. split; [reflexivity|]. split; [exact L1|]. split; [exact K1|].
    split; [intros d Ed; rewrite E in Ed; injection Ed as <-; exact P1|cbn; auto].
  - assert (Ec' : n_reps (moved n r c') !! r = Some c') by (cbn; apply lookup_insert).
    destruct (Ct _ N) as [C1 C2 C3].
    apply (decryption_good (horder r) (rorder r) (HH r) (HR r) _ _ _ _ (n_ops n)) in Q as (L1 & K1 & P1 & _);
      [|apply (no_reach _ _ _ OK _ _ E)|eauto|apply (no_sub _ _ _ OK _ _ E)|apply (no_ops _ _ _ OK)|exact M|eauto|constructor; assumption].
    exists r, c'. split; [reflexivity|]. split; [reflexivity|]. split; [exact L1|]. split; [eapply keys_good_mono; [exact Mo|exact K1]|].
    split; [intros d Ed; rewrite E in Ed; injection Ed as <-; exact P1|cbn; auto].
Qed.

Lemma all_made_mono ops ops' : ops ⊆ ops' -> forall h o, (op_preds (so_op o) = ∅ \/
    exists g, graph_reachable g /\ g_ops g ⊆ ops /\ g_ops g !! h = None /\ op_preds (so_op o) = g_heads g) ->
  op_preds (so_op o) = ∅ \/ exists g, graph_reachable g /\ g_ops g ⊆ ops' /\ g_ops g !! h = None /\ op_preds (so_op o) = g_heads g.
Proof. intros S h o [H|(g & A & B & C & D)]; [auto|]. right. exists g. split; [exact A|]. split; [transitivity ops; assumption|auto]. Qed.

Lemma net_good_step n n' : net_good n -> net_ok horder rorder n' -> net_step horder rorder n n' -> net_good n'.
Proof.
  intros G OK' S. pose proof (net_step_moves horder rorder HH _ _ (ng_ok _ G) S) as MV.
  destruct (step_keys _ _ G OK' S) as (r & c' & ER & EO & Lc & Kc & _ & Ct).
  assert (Mo : n_ops n ⊆ n_ops n') by (rewrite EO; apply map_union_subseteq_l).
  destruct G as [OK So M L K C]. constructor.
  - exact OK'.
  - intros h o Q. rewrite EO in Q. apply lookup_union_Some_raw in Q as [Q|[_ Q]]; [eauto|eapply (lg_ops _ Lc); exact Q].
  - intros h o Q. destruct (n_ops n !! h) as [o'|] eqn:E.
    + assert (o' = o) as -> by (rewrite (lookup_weaken _ _ _ _ E Mo) in Q; congruence). eapply all_made_mono; [exact Mo|eauto].
    + destruct MV as [r1 id pk h1 c Eh Ec ER1 EO1|r1 c c1 Er St GS ER1 EO1].
      * rewrite EO1, (init_graph _ _ _ _ Ec) in Q. apply lookup_union_Some_raw in Q as [Q|[_ Q]]; [congruence|].
        apply lookup_singleton_Some in Q as [<- <-]. left. reflexivity.
      * rewrite EO1 in Q. apply lookup_union_Some_raw in Q as [Q|[_ Q]]; [congruence|].
        pose proof (no_sub _ _ _ OK _ _ Er) as Su.
        destruct GS as [Eg|op N P Eg|op N Eg]; rewrite Eg in Q.
        -- rewrite (lookup_weaken _ _ _ _ Q Su) in E. discriminate.
        -- apply lookup_insert_Some in Q as [[<- <-]|[_ Q]]; [|rewrite (lookup_weaken _ _ _ _ Q Su) in E; discriminate].
           right. exists (c_graph c). split; [eapply cgka_graph_reachable; [apply (HH r1)|apply (no_reach _ _ _ OK _ _ Er)]|].
           split; [transitivity (n_ops n); assumption|]. split; [|exact P].
           destruct (g_ops (c_graph c) !! so_hash op) eqn:Q; [|reflexivity]. rewrite (lookup_weaken _ _ _ _ Q Su) in E. discriminate.
        -- apply lookup_insert_Some in Q as [[<- <-]|[_ Q]]; [congruence|rewrite (lookup_weaken _ _ _ _ Q Su) in E; discriminate].
  - intros r1 c1 Q. rewrite ER in Q. apply lookup_insert_Some in Q as [[_ <-]|[_ Q]]; [exact Lc|eauto].
  - intros r1 c1 Q. rewrite ER in Q. apply lookup_insert_Some in Q as [[_ <-]|[_ Q]]; [exact Kc|eapply keys_good_mono; eauto].
  - intros e He. apply Ct in He as [He|He]; [|exact He]. destruct (C _ He) as [C1 C2 C3]. constructor; [exact C1|exact C2|eapply epoch_key_mono; eauto].
Qed.

Lemma net_reachable_good n : net_reachable horder rorder n -> net_good n.
Proof.
  intros R. induction R as [r id pk h c E|n n' R IH S].
  - pose proof (net_reachable_ok horder rorder HH HR _ (nr_start horder rorder r id pk h c E)) as OK.
    assert (c_sks c = ∅ /\ c_pcs c = ∅ /\ c_pcs_ops c = ∅) as (Z1 & Z2 & Z3).
    { unfold cgka_from_init in E. apply rbind_ok in E as (t & _ & E). injection E as <-. auto. }
    constructor; [exact OK|..]; cbn.
    + intros x o Q. apply lookup_singleton_Some in Q as [<- <-]. exact I.
    + intros x o Q. apply lookup_singleton_Some in Q as [<- <-]. left. reflexivity.
    + intros r1 c1 Q. apply lookup_singleton_Some in Q as [<- <-]. constructor.
      * eapply good_init; exact E.
      * rewrite Z1. intros a b Q. rewrite lookup_empty in Q. discriminate.
      * rewrite (init_graph _ _ _ _ E). intros x o Q. apply lookup_singleton_Some in Q as [<- <-]. exact I.
    + intros r1 c1 Q. apply lookup_singleton_Some in Q as [<- <-]. constructor.
      * rewrite Z2. intros a b Q. rewrite lookup_empty in Q. discriminate.
      * rewrite Z3. intros a b Q. rewrite lookup_empty in Q. discriminate.
    + intros e He. apply elem_of_nil in He as [].
  - eapply net_good_step; [exact IH| |exact S]. eapply (net_reachable_ok horder rorder HH HR). eapply nr_step; eauto.
Qed.

(** ** Consequences *)
Lemma net_epoch_key_lemma n r r' c c' h d d' k k' : net_reachable horder rorder n ->
  n_reps n !! r = Some c -> n_reps n !! r' = Some c' ->
  derive_pcs_key_for_op (rorder r) c h = (d, Ok k) -> derive_pcs_key_for_op (rorder r') c' h = (d', Ok k') -> k = k'.
Proof.
  intros R E E' D D'. apply net_reachable_good in R as [OK So M L K C].
  assert (P : forall r c d k, n_reps n !! r = Some c -> derive_pcs_key_for_op (rorder r) c h = (d, Ok k) -> epoch_key (n_ops n) h k).
  { intros r0 c0 d0 k0 E0 D0. eapply (derive_key (horder r0) (rorder r0) (HH r0) (HR r0)) in D0 as [[_ N]|(k1 & Q & _ & Ek)].
    - exfalso. eapply N; reflexivity.
    - injection Q as <-. eapply epoch_key_mono; [apply (no_sub _ _ _ OK _ _ E0)|exact Ek].
    - apply (no_reach _ _ _ OK _ _ E0).
    - eauto.
    - apply (no_sub _ _ _ OK _ _ E0).
    - apply (no_ops _ _ _ OK).
    - exact M. }
  eapply epoch_key_fun; [exact (oo_root _ (no_ops _ _ _ OK))|eapply P; [exact E|exact D]|eapply P; [exact E'|exact D']].
Qed.

Lemma net_current_key_lemma n r r' c c' d d' k k' : net_reachable horder rorder n ->
  n_reps n !! r = Some c -> n_reps n !! r' = Some c' -> g_ops (c_graph c) = g_ops (c_graph c') -> has_single_head (c_graph c) = true ->
  pcs_key_from_tree_root c = (d, Ok k) -> pcs_key_from_tree_root c' = (d', Ok k') -> k = k'.
Proof.
  intros R E E' Eo H1 D D'. pose proof (net_converge_lemma horder rorder HH HR n r r' c c' R E E' Eo H1) as T.
  apply net_reachable_good in R as [OK So M L K C].
  apply root_key_sound in D as [_ D]; [|apply (lg_tree _ (L _ _ E))|apply (lg_sks _ (L _ _ E))].
  apply root_key_sound in D' as [_ D']; [|apply (lg_tree _ (L _ _ E'))|apply (lg_sks _ (L _ _ E'))].
  rewrite <- T in D'. eapply root_is_unique; [apply D|apply D']; reflexivity.
Qed.

Lemma net_decrypt_lemma n r c e c' key : net_reachable horder rorder n -> n_reps n !! r = Some c -> e ∈ n_cts n ->
  decryption_key_for (rorder r) c e = (c', Ok key) -> content_decrypt e key = Some (ct_plain (ec_cipher e)).
Proof.
  intros R E He D. apply net_reachable_good in R as [OK So M L K C]. destruct (C _ He) as [C1 C2 C3].
  apply (decryption_good (horder r) (rorder r) (HH r) (HR r) _ _ _ _ (n_ops n)) in D as (_ & _ & _ & F);
      [|apply (no_reach _ _ _ OK _ _ E)|eauto|apply (no_sub _ _ _ OK _ _ E)|apply (no_ops _ _ _ OK)|exact M|eauto|constructor; assumption].
  apply F. reflexivity.
Qed.

(** Epoch keys once known stay known. *)
Lemma net_keys_kept n n' r c : net_reachable horder rorder n -> rtc (net_step horder rorder) n n' -> n_reps n !! r = Some c ->
  exists c', n_reps n' !! r = Some c' /\ c_pcs c ⊆ c_pcs c'.
Proof.
  intros R St. revert R c. induction St as [n|n n1 n' S _ IH]; intros R c E; [exists c; split; [exact E|reflexivity]|].
  assert (R1 : net_reachable horder rorder n1) by (eapply nr_step; eauto).
  destruct (step_keys _ _ (net_reachable_good _ R) (net_reachable_ok horder rorder HH HR _ R1) S) as (r1 & c1 & ER & _ & _ & _ & P & _).
  destruct (decide (r1 = r)) as [->|N].
  - destruct (IH R1 c1) as (c' & E' & P'); [rewrite ER; apply lookup_insert|]. exists c'. split; [exact E'|]. transitivity (c_pcs c1); [apply P, E|exact P'].
  - apply IH; [exact R1|]. rewrite ER, lookup_insert_ne by exact N. exact E.
Qed.

Lemma net_author_decrypts_lemma n n1 n' r c c1 ref content preds sk h rng s o c' : net_reachable horder rorder n ->
  n_reps n !! r = Some c -> n_ops n !! h = None -> new_app_secret_for (horder r) (rorder r) c ref content preds sk h rng = (c1, Ok (s, o)) ->
  n1 = sent (moved n r c1) [app_encrypt s content] -> rtc (net_step horder rorder) n1 n' -> n_reps n' !! r = Some c' ->
  exists key, decryption_key_for (rorder r) c' (app_encrypt s content) = (c', Ok key) /\ content_decrypt (app_encrypt s content) key = Some content.
Proof.
  intros R E N Q En St E'.
  assert (S1 : net_step horder rorder n n1) by (rewrite En; eapply ns_encrypt; eauto).
  assert (R1 : net_reachable horder rorder n1) by (eapply nr_step; eauto).
  pose proof (net_reachable_good _ R) as [OK So M L K C]. pose proof (net_reachable_ok horder rorder HH HR _ R1) as OK1.
  assert (E1 : n_reps n1 !! r = Some c1) by (rewrite En; cbn; apply lookup_insert).
  assert (Mo : n_ops n ⊆ n_ops n1) by (rewrite En; apply map_union_subseteq_l).
  apply (new_app_secret_good (horder r) (rorder r) (HH r) (HR r) _ _ _ _ _ _ _ _ _ (n_ops n1)) in Q as (_ & _ & _ & F);
    [|apply (no_reach _ _ _ OK _ _ E)|apply (no_reach _ _ _ OK1 _ _ E1)|eauto|transitivity (n_ops n); [apply (no_sub _ _ _ OK _ _ E)|exact Mo]|apply (no_sub _ _ _ OK1 _ _ E1)|apply (no_ops _ _ _ OK1)|eapply keys_good_mono; [exact Mo|eauto]].
  destruct (F s o eq_refl) as (k & Ek & Ea & Ep & _).
  destruct (net_keys_kept _ _ _ _ R1 St E1) as (c2 & E2 & P). rewrite E' in E2. injection E2 as <-.
  pose proof (lookup_weaken _ _ _ _ Ep P) as Ep'.
  unfold decryption_key_for, pcs_key_from_hashes. cbn [ec_pcs app_encrypt]. rewrite Ek, Ep'. cbn [c_pcs]. rewrite Ep'. eexists. split; [reflexivity|].
  unfold content_decrypt. cbn. rewrite decide_True; [reflexivity|]. rewrite Ea. auto.
Qed.
End net.
