(** Networks in which changes of members take turns: every operation is made, and every
    replica's tree is, as [ReadWorld] says. *)
From Coq Require Import Arith Lia.
From stdpp Require Import base list gmap relations.
From Verif Require Import ResModel KeysModel KeysProofs TreeMathModel TreeMathSpec TreeMathProofs TreeModel TreeSpec TreeOps TreeView TreeProofs TreeInv TreeRun
  OpsModel OpsSpec OpsInv OpsProofs OpsPropsProofs OpsAlone CgkaModel CgkaSpec CgkaProofs CgkaReplay CgkaConverge CgkaSound CgkaRow NetSpec NetProofs NetKeys NetAgree NetInv
  TurnCalls GrowSpec CgkaGrow GrowNet GrowReceive ReadSpec ReadTree ReadWorld ReadNet.

(** ** How operations are made, in more detail than in [GrowNet] *)
Definition made_op ho ro (c : cgka) (op : signed_op) : Prop :=
  match so_op op with
  | CAdd id pk i _ _ => contains_id (c_tree c) id = false /\ exists c1 t, maybe_replay ho ro c = Ok c1 /\ push_leaf (c_tree c1) id (SKey pk) = Ok (t, i)
  | CRemove id i _ _ => exists c1 t ks, maybe_replay ho ro c = Ok c1 /\ member_count (c_tree c1) <> 1 /\ remove_id (c_tree c1) id = Ok (t, (i, ks))
  | CUpdate id pc _ => exists c1 pk sks rng t k sks' rng', maybe_replay ho ro c = Ok c1 /\ sks !! pk = Some pk /\
      encrypt_path (c_tree c1) id pk sks rng = Ok (t, k, pc, sks', rng')
  end.
Definition adding ho ro (c c' : cgka) (h : digest) : Prop :=
  (exists op, so_hash op = h /\ op_preds (so_op op) = list_to_set (ho (g_heads (c_graph c))) /\ c_graph c' = add_local_op (c_graph c) op /\ made_op ho ro c op) \/
  c_graph c' = c_graph c.

Section made.
Context (ho : gset digest -> list digest) (ro : gset (member_id * nat) -> list (member_id * nat)) (HH : some_order ho) (HR : some_order ro).

Lemma add_adding c id pk h c' x : cgka_add ho ro c id pk h = (c', x) -> adding ho ro c c' h.
Proof.
  unfold cgka_add. destruct (contains_id _ _) eqn:Ec; [intros Q; injection Q as <- <-; right; reflexivity|].
  destruct (maybe_replay ho ro c) as [c1|e| |] eqn:Em; intros Q; [|injection Q as <- <-; right; reflexivity..].
  pose proof (maybe_replay_graph _ _ _ _ Em) as (G & _). destruct (push_leaf _ _ _) as [[t i]|e| |] eqn:Ep; injection Q as <- <-; [|right; cbn; exact G..].
  left. cbn [c_graph set_graph set_tree set_sks insert_pcs_key]. rewrite G. eexists. split; [|split; [|split; [reflexivity|]]]; [reflexivity..|].
  unfold made_op. cbn [so_op]. eauto.
Qed.
Lemma remove_adding c id h c' x : cgka_remove ho ro c id h = (c', x) -> adding ho ro c c' h.
Proof.
  unfold cgka_remove. destruct (negb _); [intros Q; injection Q as <- <-; right; reflexivity|].
  destruct (maybe_replay ho ro c) as [c1|e| |] eqn:Em; intros Q; [|injection Q as <- <-; right; reflexivity..].
  pose proof (maybe_replay_graph _ _ _ _ Em) as (G & _). destruct (Nat.eqb_spec (member_count (c_tree c1)) 1) as [|Mc]; [injection Q as <- <-; right; exact G|].
  destruct (remove_id _ _) as [[t [i ks]]|e| |] eqn:Er; injection Q as <- <-; [|right; cbn; exact G..].
  left. cbn [c_graph set_graph set_tree set_sks insert_pcs_key]. rewrite G. eexists. split; [|split; [|split; [reflexivity|]]]; [reflexivity..|].
  unfold made_op. cbn [so_op]. eauto 8.
Qed.
Lemma update_adding c sk h rng c' x : cgka_reachable ho ro c -> single_root (c_graph c) -> good_sks (c_sks c) ->
  cgka_update ho ro c sk h rng = (c', x) -> adding ho ro c c' h.
Proof.
  intros R SR GS. unfold cgka_update. destruct (maybe_replay ho ro c) as [c1|e| |] eqn:Em; intros Q; [|injection Q as <- <-; right; reflexivity..].
  pose proof (maybe_replay_graph _ _ _ _ Em) as (G & _). pose proof (maybe_replay_keys ho ro HH HR c c1 R SR Em) as (Ks & _).
  destruct (update_identity c1 (pub sk) sk) as [[[id pk] sk']|e| |] eqn:Eu; [|injection Q as <- <-; right; cbn; exact G..].
  assert (P : sk' = pk).
  { unfold update_identity in Eu. destruct (contains_id _ _); [injection Eu as <- <- <-; reflexivity|].
    destruct (node_key_for_id _ _) as [[pk'|]|e| |]; try discriminate. apply rbind_ok in Eu as (s & Es & Eu). injection Eu as <- <- <-.
    destruct (c_sks c1 !! pk') as [s'|] eqn:El; [|discriminate]. injection Es as ->. rewrite Ks in El. exact (GS _ _ El). }
  destruct (encrypt_path _ _ _ _ _) as [[[[[t k] path] sks] rng']|e| |] eqn:Ee; injection Q as <- <-; [|right; cbn; exact G..].
  left. cbn [c_graph set_graph set_tree set_sks insert_pcs_key]. rewrite G. eexists. split; [|split; [|split; [reflexivity|]]]; [reflexivity..|].
  unfold made_op. cbn [so_op]. cbn [c_tree c_sks set_sks] in Ee. eexists c1, pk, _, rng, t, k, sks, rng'. split; [exact Em|]. split; [|exact Ee].
  rewrite lookup_insert, P. reflexivity.
Qed.
Lemma new_app_secret_adding c ref content preds sk h rng c' x : cgka_reachable ho ro c -> single_root (c_graph c) -> good_sks (c_sks c) ->
  new_app_secret_for ho ro c ref content preds sk h rng = (c', x) -> adding ho ro c c' h.
Proof.
  intros R SR GS. unfold new_app_secret_for. destruct (has_pcs_key c) as [[]|e| |].
  3-5: intros Q; injection Q as <- <-; right; reflexivity.
  - destruct (pcs_key_from_tree_root c) as [c1 r1] eqn:Er. apply root_graph in Er as [sks ->].
    destruct r1 as [k|e| |]; [|intros Q; injection Q as <- <-; right; reflexivity..].
    destruct (c_pcs _ !! _); [|destruct (ho _)]; destruct (c_pcs_ops _ !! _); intros Q; injection Q as <- <-; right; reflexivity.
  - destruct (cgka_update _ _ _ _ _ _) as [c1 r1] eqn:Eu. apply update_adding in Eu; [|assumption..].
    destruct r1 as [[[k op] rng']|e| |]; [|intros Q; injection Q as <- <-; exact Eu..].
    destruct (c_pcs_ops _ !! _); intros Q; injection Q as <- <-; exact Eu.
Qed.
End made.

Section net.
Context (horder : nat -> gset digest -> list digest).
Context (rorder : nat -> gset (member_id * nat) -> list (member_id * nat)).
Context (HH : forall r, some_order (horder r)) (HR : forall r, some_order (rorder r)).

Inductive brings (n n' : network) : Prop :=
| br_none : n_ops n' = n_ops n -> brings n n'
| br_one r c op : n_reps n !! r = Some c -> n_ops n !! so_hash op = None -> op_preds (so_op op) = g_heads (c_graph c) ->
    made_op (horder r) (rorder r) c op -> n_ops n' = <[so_hash op := op]> (n_ops n) -> brings n n'.

Lemma adding_brings n n' r c c' h : net_ok horder rorder n -> n_reps n !! r = Some c -> n_ops n !! h = None -> adding (horder r) (rorder r) c c' h ->
  n_ops n' = n_ops n ∪ g_ops (c_graph c') -> brings n n'.
Proof.
  intros K E N M EO. pose proof (no_sub _ _ _ K _ _ E) as S. destruct M as [(op & <- & P & G & U)|G].
  - eapply (br_one _ _ r c op); [exact E|exact N|rewrite P; apply horder_set, HH|exact U|]. rewrite EO, G. cbn [add_local_op add_op_and_update_heads g_ops].
    apply map_eq. intros x. rewrite lookup_union. destruct (decide (x = so_hash op)) as [-> |Nx].
    + rewrite N, !lookup_insert. reflexivity.
    + rewrite !lookup_insert_ne by auto. destruct (n_ops n !! x) eqn:Q; [destruct (g_ops _ !! x); reflexivity|].
      destruct (g_ops (c_graph c) !! x) eqn:Q'; [|reflexivity]. rewrite (lookup_weaken _ _ _ _ Q' S) in Q. discriminate.
  - apply br_none. rewrite EO, G. apply union_absorb, S.
Qed.

Lemma step_brings n n' : net_good horder rorder n -> net_step horder rorder n n' -> brings n n'.
Proof.
  intros NG St. pose proof (ng_ok _ _ _ NG) as K.
  assert (Pre : forall r c, n_reps n !! r = Some c -> cgka_reachable (horder r) (rorder r) c /\ single_root (c_graph c) /\ good_sks (c_sks c)).
  { intros r c E. split; [apply (no_reach _ _ _ K), E|]. split; [|apply (lg_sks _ (ng_local _ _ _ NG _ _ E))].
    eapply (single_root_mono _ (all_ops (n_ops n))); [apply (no_sub _ _ _ K _ _ E)|apply (oo_root _ (no_ops _ _ _ K))]. }
  destruct St as [r id pk h c N E Ec|r c id sks E G|r c c' id pk h x E N Q|r c c' id h x E N Q|r c c' sk h rng x E N Q|r c c' h op x E N Q|r c c' ref content preds sk h rng s o E N Q|r c c' ref content preds sk h rng x E N Q _|r c c' e x E N Q].
  - apply br_none. cbn [moved n_ops]. rewrite (init_graph _ _ _ _ Ec). apply union_absorb, map_singleton_subseteq_l, E.
  - apply br_none. cbn [moved n_ops]. apply union_absorb. exact (no_sub _ _ _ K _ _ E).
  - eapply adding_brings; [exact K|exact E|exact N|eapply add_adding; exact Q|reflexivity].
  - eapply adding_brings; [exact K|exact E|exact N|eapply remove_adding; exact Q|reflexivity].
  - destruct (Pre _ _ E) as (A & B & C). eapply adding_brings; [exact K|exact E|exact N|eapply update_adding; [apply HH|apply HR|exact A|exact B|exact C|exact Q]|reflexivity].
  - apply br_none. cbn [moved n_ops]. pose proof (no_sub _ _ _ K _ _ E) as S. apply union_absorb.
    assert (so_hash op = h) by (eapply (oo_hash _ (no_ops _ _ _ K)); eauto). subst h.
    assert (Ins : <[so_hash op := op]> (g_ops (c_graph c)) ⊆ n_ops n).
    { apply map_subseteq_spec. intros y o Qy. apply lookup_insert_Some in Qy as [[<- <-]|[_ Qy]]; [exact N|]. eapply lookup_weaken; eauto. }
    apply merge_step in Q as (_ & _ & _ & [(_ & -> & _)|[(_ & _ & -> & _)|(_ & _ & [[_ G]|[_ G]])]]); try (rewrite G); try exact S. exact Ins.
  - destruct (Pre _ _ E) as (A & B & C). eapply adding_brings; [exact K|exact E|exact N|eapply new_app_secret_adding; [apply HH|apply HR|exact A|exact B|exact C|exact Q]|reflexivity].
  - destruct (Pre _ _ E) as (A & B & C). eapply adding_brings; [exact K|exact E|exact N|eapply new_app_secret_adding; [apply HH|apply HR|exact A|exact B|exact C|exact Q]|reflexivity].
  - apply br_none. cbn [moved n_ops]. apply decryption_graph in Q as [-> _]. apply union_absorb. exact (no_sub _ _ _ K _ _ E).
Qed.

Definition all_well (ops : gmap digest signed_op) : Prop := forall x o, ops !! x = Some o -> well_made ops x (so_op o).

Lemma ops_closed ops : ops_ok ops -> forall p h, named ops p h -> is_Some (ops !! p).
Proof. intros K p h N. eapply (oo_closed _ K). exact N. Qed.

Lemma orderly_down ops ops' : ops ⊆ ops' -> ops_ok ops -> orderly ops' -> orderly ops.
Proof.
  intros S K [B C D]. pose proof (ops_closed _ K) as Cl. constructor; [eapply in_turn_down|eapply one_writer_down|eapply fresh_keys_down]; eauto.
Qed.

(** What a replica knows. *)
Definition known (c : cgka) : gset digest := dom (g_ops (c_graph c)).

(** Replaying what leads to some heads of a replica. *)
Lemma heads_describe n r c hs : net_ok horder rorder n -> orderly (n_ops n) -> all_well (n_ops n) -> n_reps n !! r = Some c ->
  NoDup hs -> hs <> [] -> (forall x, x ∈ hs -> is_Some (g_ops (c_graph c) !! x)) ->
  exists es t g h D, topsort_for_heads (c_graph c) hs = Ok es /\ replays (rorder r) (c_original c) (c_init c) es t g /\
    describes (n_ops n) D t h /\ closed (n_ops n) D /\
    (forall y, y ∈ D <-> is_Some (g_ops (c_graph c) !! y) /\ exists x, x ∈ hs /\ rtc (pred_of (c_graph c)) y x) /\
    last_first es <> Panic /\ graph_reachable g /\ (forall y o, g_ops g !! y = Some o <-> y ∈ D /\ n_ops n !! y = Some o).
Proof.
  intros K [AT OW FK] CA E ND NE Kh. pose proof (no_sub _ _ _ K _ _ E) as Sub. pose proof (no_reach _ _ _ K _ _ E) as R.
  assert (Rg : graph_reachable (c_graph c)) by (eapply cgka_graph_reachable; [apply HH|exact R]). pose proof (reachable_ginv _ Rg) as V.
  assert (SR : single_root (c_graph c)) by (eapply (single_root_mono _ (all_ops (n_ops n))); [exact Sub|apply (oo_root _ (no_ops _ _ _ K))]).
  assert (U : unordered_preds (c_graph c)) by (eapply (unordered_mono _ (all_ops (n_ops n))); [exact Sub|apply (oo_unordered _ (no_ops _ _ _ K))]).
  destruct (init_kept _ _ c R) as [I1 I2].
  destruct (replay_order_lemma (c_graph c) hs Rg SR ND NE Kh) as (es & Et & GR).
  assert (E0 : exists c0, cgka_from_init (c_original c).1 (c_original c).2 (c_init c) = Ok c0).
  { unfold cgka_from_init. destruct (tree_new_inv (c_original c).1 (c_original c).2) as (t & -> & _). cbn [rbind]. eauto. }
  destruct E0 as [c0 E0].
  destruct (replay_described (n_ops n) (no_ops _ _ _ K) CA AT OW FK (rorder r) (c_graph c) V U SR Sub hs es _ _ _ c0 ND NE Kh Et GR I1 I2 E0) as (c1 & E1 & [[h Ds] Cl Kn Sn Rn]).
  exists es, (c_tree c1), (c_graph c1), h, (done_set (concat es)). split; [exact Et|]. split; [exists c0, c1; auto|]. split; [exact Ds|]. split; [exact Cl|]. split.
  - intros y. rewrite elem_of_done. split.
    + intros (o & Ho & <-). apply (gre_complete _ _ _ GR) in Ho as [Ho Hr]. eauto.
    + intros [[o Eo] Hr]. exists o. pose proof (gi_hash _ V _ _ Eo) as Eh. split; [|exact Eh]. apply (gre_complete _ _ _ GR). rewrite Eh. auto.
  - split; [|split; [exact Rn|]].
    2:{ intros y o. rewrite <- (Kn y). unfold contains_op. rewrite bool_decide_eq_true. split.
        - intros Q. split; [eauto|]. eapply lookup_weaken; eauto.
        - intros [[o' Q] Q']. rewrite (lookup_weaken _ _ _ _ Q Sn) in Q'. congruence. }
    unfold last_first. destruct (last es) as [[|o l]|] eqn:El; [| |].
    + exfalso. apply last_Some_elem_of in El. exact (gre_nonempty _ _ _ GR _ El eq_refl).
    + discriminate.
    + apply last_None in El as ->. exfalso. destruct hs as [|x hs]; [contradiction|]. destruct (Kh x ltac:(left)) as [o Eo]. pose proof (gi_hash _ V _ _ Eo) as Eh.
      assert (Q : o ∈ concat []) by (apply (gre_complete _ _ _ GR); rewrite Eh; split; [exact Eo|exists x; split; [left|apply rtc_refl]]). inversion Q.
Qed.

Lemma known_closed n r c : net_ok horder rorder n -> n_reps n !! r = Some c -> closed (n_ops n) (known c).
Proof.
  intros K E. pose proof (no_sub _ _ _ K _ _ E) as Sub. pose proof (no_reach _ _ _ K _ _ E) as R.
  assert (Rg : graph_reachable (c_graph c)) by (eapply cgka_graph_reachable; [apply HH|exact R]). pose proof (reachable_ginv _ Rg) as V.
  unfold known. split.
  - intros x Hx. apply elem_of_dom in Hx as [o Hx]. exists o. eapply lookup_weaken; eauto.
  - intros x p Hx (o & Eo & Hp). apply elem_of_dom in Hx as [o' Hx]. rewrite (lookup_weaken _ _ _ _ Hx Sub) in Eo. injection Eo as ->. apply elem_of_dom.
    apply (gi_closed _ V p x). exists o. auto.
Qed.

(** Replaying all that a replica knows. *)
Lemma replay_all n r c : net_ok horder rorder n -> orderly (n_ops n) -> all_well (n_ops n) -> n_reps n !! r = Some c ->
  exists es t g h, topsort_graph (c_graph c) (horder r) = Ok es /\ replays (rorder r) (c_original c) (c_init c) es t g /\ describes (n_ops n) (known c) t h /\
    g_heads g = g_heads (c_graph c).
Proof.
  intros K Od CA E. pose proof (no_reach _ _ _ K _ _ E) as R. pose proof (no_sub _ _ _ K _ _ E) as Sub.
  assert (Rg : graph_reachable (c_graph c)) by (eapply cgka_graph_reachable; [apply HH|exact R]). pose proof (reachable_ginv _ Rg) as V.
  unfold topsort_graph. set (hs := horder r (g_heads (c_graph c))) in *. pose proof (HH r (g_heads (c_graph c)) : Permutation hs _) as Ph.
  assert (ND : NoDup hs) by (rewrite Ph; apply NoDup_elements).
  assert (Hin : forall x, x ∈ hs <-> x ∈ g_heads (c_graph c)) by (intros x; rewrite Ph; apply elem_of_elements).
  assert (Kh : forall x, x ∈ hs -> is_Some (g_ops (c_graph c) !! x)).
  { intros x Hx. apply Hin in Hx. apply (gi_heads _ V) in Hx. destruct Hx as [Hx _]. exact Hx. }
  assert (NE : hs <> []).
  { intros Z. pose proof (heads_nonempty _ Rg) as Q. apply Q. apply set_eq. intros x. rewrite <- Hin, Z. set_solver. }
  destruct (heads_describe n r c hs K Od CA E ND NE Kh) as (es & t & g & h & D & Et & Re & Ds & Cl & HD & _ & Rn & Go). assert (EqD : D = known c).
  { apply set_eq. intros x. rewrite HD. unfold known. rewrite elem_of_dom. split; [intros [Q _]; exact Q|]. intros Q. split; [exact Q|].
    destruct (some_head_lemma _ Rg x Q) as (k & Hk & Rk). exists k. split; [apply Hin, Hk|exact Rk]. }
  rewrite EqD in Ds, Go. exists es, t, g, h. split; [exact Et|]. split; [exact Re|]. split; [exact Ds|].
  apply same_ops_same_graph_lemma; [exact Rn|exact Rg|]. apply map_eq. intros x. apply option_eq. intros o. rewrite Go. unfold known. rewrite elem_of_dom. split.
  - intros [[o' Q] Q']. rewrite (lookup_weaken _ _ _ _ Q Sub) in Q'. congruence.
  - intros Q. split; [eauto|]. eapply lookup_weaken; eauto.
Qed.

Lemma canonical_describes n r c t : net_ok horder rorder n -> orderly (n_ops n) -> all_well (n_ops n) -> n_reps n !! r = Some c ->
  canonical (horder r) (rorder r) c t -> exists h, describes (n_ops n) (known c) t h.
Proof.
  intros K Od CA E (es & g & Et & Re). destruct (replay_all n r c K Od CA E) as (es' & t' & g' & h & Et' & Re' & Ds & _). rewrite Et in Et'. injection Et' as <-.
  destruct (replays_det _ _ _ _ _ _ _ _ _ (HR r) (HR r) Re Re') as [-> _]. eauto.
Qed.
Lemma parts n r c : net_ok horder rorder n -> n_reps n !! r = Some c ->
  cgka_reachable (horder r) (rorder r) c /\ single_root (c_graph c) /\ unordered_preds (c_graph c).
Proof.
  intros K E. pose proof (no_sub _ _ _ K _ _ E) as Sub. split; [apply (no_reach _ _ _ K), E|]. split.
  - eapply (single_root_mono _ (all_ops (n_ops n))); [exact Sub|apply (oo_root _ (no_ops _ _ _ K))].
  - eapply (unordered_mono _ (all_ops (n_ops n))); [exact Sub|apply (oo_unordered _ (no_ops _ _ _ K))].
Qed.
Lemma replayed_describes n r c c1 : net_ok horder rorder n -> orderly (n_ops n) -> all_well (n_ops n) -> n_reps n !! r = Some c ->
  maybe_replay (horder r) (rorder r) c = Ok c1 -> exists h, describes (n_ops n) (known c) (c_tree c1) h.
Proof.
  intros K Od CA E Em. destruct (parts n r c K E) as (R & SR & U). eapply canonical_describes; eauto.
  eapply maybe_replay_canonical; eauto. apply quiescent_canonical_inv; auto.
Qed.
Lemma head_describes n r c : net_ok horder rorder n -> orderly (n_ops n) -> all_well (n_ops n) -> n_reps n !! r = Some c ->
  has_single_head (c_graph c) = true -> exists h, describes (n_ops n) (known c) (c_tree c) h.
Proof.
  intros K Od CA E Hs. destruct (parts n r c K E) as (R & SR & U). eapply canonical_describes; eauto.
  apply (quiescent_canonical_inv _ _ (HH r) (HR r) c R); assumption.
Qed.

(** A replay never fails: it happens with several heads only, so it never has to read the group key. *)
Lemma replay_works n r c : net_ok horder rorder n -> orderly (n_ops n) -> all_well (n_ops n) -> n_reps n !! r = Some c ->
  exists c1, maybe_replay (horder r) (rorder r) c = Ok c1.
Proof.
  intros K Od CA E. destruct (parts n r c K E) as (R & SR & U). unfold maybe_replay. destruct (should_replay c) eqn:Es; [|eauto].
  assert (Hs : has_single_head (c_graph c) = false).
  { unfold should_replay in Es. apply andb_true_iff in Es as [_ Es]. apply orb_true_iff in Es as [Es|Es].
    - eapply pending_heads; [apply HH|exact R|exact Es].
    - apply negb_true_iff. exact Es. }
  destruct (replay_all n r c K Od CA E) as (es & t & g & h & Et & (c0 & c1 & E0 & E1 & T1 & G1) & Ds & Hd).
  destruct (apply_epochs_core (rorder r) (rorder r) (HR r) (HR r) es c0 (with_new_owner c0 (c_owner c) (c_sks c)) c1) as (d & Ed & [T Gr]); [split; reflexivity|exact E1|].
  unfold replay_ops_graph. rewrite Et. cbn [rbind]. unfold rebuild_cgka, rebuild_from. rewrite E0. cbn [rbind]. rewrite Ed. cbn [rbind].
  destruct (has_root_key_ok (c_tree d) h) as [b Eb]; [rewrite <- T, T1; apply Ds|].
  assert (Hp : has_pcs_key d = Ok false).
  { unfold has_pcs_key. rewrite Eb. cbn [rbind]. unfold has_single_head in Hs |- *. rewrite <- Gr, G1, Hd, Hs. rewrite andb_false_r. reflexivity. }
  rewrite Hp. cbn [rbind]. eauto.
Qed.

(** Everything that a replica knows comes before what it makes. *)
Lemma known_past n r c ops' op : net_ok horder rorder n -> n_reps n !! r = Some c -> n_ops n !! so_hash op = None -> op_preds (so_op op) = g_heads (c_graph c) ->
  ops' = <[so_hash op := op]> (n_ops n) -> past ops' (so_hash op) (known c).
Proof.
  intros K E N P ->. pose proof (no_sub _ _ _ K _ _ E) as Sub. pose proof (no_reach _ _ _ K _ _ E) as R.
  assert (Rg : graph_reachable (c_graph c)) by (eapply cgka_graph_reachable; [apply HH|exact R]). pose proof (reachable_ginv _ Rg) as V.
  assert (S' : n_ops n ⊆ <[so_hash op := op]> (n_ops n)) by (apply insert_subseteq, N).
  assert (Sg : g_ops (c_graph c) ⊆ <[so_hash op := op]> (n_ops n)) by (etransitivity; eauto).
  assert (Last : forall k, named (<[so_hash op := op]> (n_ops n)) k (so_hash op) <-> k ∈ g_heads (c_graph c)).
  { intros k. split.
    - intros (o & Eo & Hk). rewrite lookup_insert in Eo. injection Eo as <-. rewrite <- P. exact Hk.
    - intros Hk. exists op. rewrite lookup_insert, P. auto. }
  intros y. unfold known. rewrite elem_of_dom. split.
  - intros Hy. destruct (some_head_lemma _ Rg y Hy) as (k & Hk & Rk). apply Last in Hk. apply rtc_tc in Rk as [-> |Rk]; [apply tc_once, Hk|].
    eapply tc_r; [|exact Hk]. exact (before_mono (c_graph c) (all_ops (<[so_hash op := op]> (n_ops n))) _ _ Sg Rk).
  - intros B. apply tc_last in B as [B|(z & B & Q)].
    + apply Last in B. apply (gi_heads _ V) in B as [B _]. exact B.
    + apply Last in Q. apply (gi_heads _ V) in Q as [Q _]. apply (before_down (c_graph c) (all_ops (<[so_hash op := op]> (n_ops n))) V Sg y z B Q).
Qed.

(** ** Every replica's tree is the tree of what it knows *)
Definition fine (ops : gmap digest signed_op) (c : cgka) : Prop := (exists h, describes ops (known c) (c_tree c) h) /\ c_pending c = false.

(** A change of members is received with knowledge of all that was known to the one who made it, and nothing else. *)
Lemma changes_follow n r c op : net_ok horder rorder n -> orderly (n_ops n) -> n_reps n !! r = Some c -> n_ops n !! so_hash op = Some op ->
  contains_op (c_graph c) (so_hash op) = false -> (forall p, p ∈ op_preds (so_op op) -> is_Some (g_ops (c_graph c) !! p)) ->
  is_update (so_op op) = false -> heads_contained_in (c_graph c) (op_preds (so_op op)) = true.
Proof.
  intros K Od E N Ec Kn Up. pose proof (no_sub _ _ _ K _ _ E) as Sub. pose proof (no_reach _ _ _ K _ _ E) as R.
  assert (Rg : graph_reachable (c_graph c)) by (eapply cgka_graph_reachable; [apply HH|exact R]). pose proof (reachable_ginv _ Rg) as V.
  unfold heads_contained_in. apply bool_decide_eq_true. intros x Hx. apply (gi_heads _ V) in Hx as [[ox Kx] Hx]. apply contains_op_false in Ec.
  destruct (od_turn _ Od (so_hash op) op x N Up) as [H|[H|H]].
  - exists ox. eapply lookup_weaken; eauto.
  - exfalso. subst x. congruence.
  - apply tc_last in H as [(o & Eo & H)|(z & B & (o & Eo & Hz))]; rewrite N in Eo; injection Eo as <-; [exact H|]. exfalso.
    apply (before_down (c_graph c) (all_ops (n_ops n)) V Sub x z) in B as [B _]; [|apply Kn, Hz]. destruct B as [a b B|a b d B _]; exact (Hx _ B).
  - exfalso. apply (before_down (c_graph c) (all_ops (n_ops n)) V Sub (so_hash op) x) in H as [_ [o Q]]; [congruence|eauto].
Qed.

Lemma known_add c c' op : g_ops (c_graph c') = <[so_hash op := op]> (g_ops (c_graph c)) -> known c' = known c ∪ {[ so_hash op ]}.
Proof. intros E. unfold known. rewrite E, dom_insert_L. set_solver. Qed.

(** Receiving an operation whose ancestors are known works. *)
Lemma receive_fine n r c op : net_ok horder rorder n -> orderly (n_ops n) -> all_well (n_ops n) -> n_reps n !! r = Some c -> fine (n_ops n) c ->
  n_ops n !! so_hash op = Some op -> (forall p, p ∈ op_preds (so_op op) -> is_Some (g_ops (c_graph c) !! p)) ->
  exists c' b, merge_concurrent_operation (horder r) (rorder r) c op = (c', Ok b) /\ fine (n_ops n) c' /\ (is_Some (g_ops (c_graph c') !! so_hash op)).
Proof.
  intros K Od CA E [[h Ds] P] N Kn. pose proof (known_closed _ _ _ K E) as C. pose proof (changes_follow n r c op K Od E N) as Cf. pose proof Od as [AT OW FK].
  unfold merge_concurrent_operation. destruct (contains_op _ _) eqn:Ec.
  { exists c, false. split; [reflexivity|]. split; [split; eauto|]. apply bool_decide_eq_true in Ec. exact Ec. }
  specialize (Cf eq_refl Kn).
  assert (Nk : so_hash op ∉ known c) by (unfold known; rewrite elem_of_dom; apply contains_op_false in Ec; rewrite Ec; intros [? ?]; discriminate).
  assert (Pr : forall p, named (n_ops n) p (so_hash op) -> p ∈ known c).
  { intros p (o & Eo & Hp). rewrite N in Eo. injection Eo as <-. unfold known. apply elem_of_dom. auto. }
  assert (CP : contains_predecessors (c_graph c) (op_preds (so_op op)) = true) by (apply bool_decide_eq_true; exact Kn). rewrite CP. cbn [negb].
  assert (Apply : forall c1 h1, describes (n_ops n) (known c) (c_tree c1) h1 -> c_graph c1 = c_graph c -> c_pending c1 = false ->
    exists c', apply_operation c1 op = Ok c' /\ fine (n_ops n) c' /\ is_Some (g_ops (c_graph c') !! so_hash op)).
  { intros c1 h1 Ds1 G1 P1. rewrite apply_operation_eq, G1, Ec. destruct (describes_next (n_ops n) (no_ops _ _ _ K) CA AT OW FK _ _ _ _ _ Ds1 C Nk N Pr) as (t' & h' & Et & Ds').
    rewrite Et. cbn [rbind]. eexists. split; [reflexivity|]. split; [split|].
    - exists h'. cbn [c_tree set_graph set_tree].
      match goal with |- describes _ (known ?d) _ _ => replace (known d) with (known c ∪ {[ so_hash op ]}) end; [exact Ds'|].
      symmetry. apply known_add. reflexivity.
    - cbn. exact P1.
    - cbn. rewrite lookup_insert. eauto. }
  destruct (heads_contained_in (c_graph c) (op_preds (so_op op))) eqn:Eh; cbn [negb].
  - destruct (replay_works n r c K Od CA E) as [c1 Em]. rewrite Em. destruct (replayed_describes n r c c1 K Od CA E Em) as [h1 Ds1].
    pose proof (maybe_replay_graph _ _ _ _ Em) as (Gr & _).
    assert (P1 : c_pending c1 = false).
    { eapply maybe_replay_pending; [|exact Em]. apply heads_nonempty. eapply cgka_graph_reachable; [apply HH|exact (no_reach _ _ _ K _ _ E)]. }
    destruct (Apply c1 h1 Ds1 Gr P1) as (c' & Ea & F & I'). rewrite Ea. exists c', true. auto.
  - rewrite P. destruct (is_update (so_op op)) eqn:Up; [|specialize (Cf eq_refl); congruence].
    destruct (Apply c h Ds eq_refl P) as (c' & Ea & F & I'). rewrite Ea. exists c', true. auto.
Qed.

Lemma fine_up n n' r c : net_ok horder rorder n -> n_ops n ⊆ n_ops n' -> n_reps n !! r = Some c -> fine (n_ops n) c -> fine (n_ops n') c.
Proof.
  intros K Su E [[h Ds] P]. split; [|exact P]. exists h. apply (describes_up (n_ops n) (n_ops n') Su); [apply ops_closed, K|eapply known_closed; eauto|exact Ds].
Qed.

Lemma made_well n n' r c op : net_ok horder rorder n -> orderly (n_ops n) -> all_well (n_ops n) -> n_reps n !! r = Some c -> fine (n_ops n) c ->
  n_ops n !! so_hash op = None -> op_preds (so_op op) = g_heads (c_graph c) -> made_op (horder r) (rorder r) c op -> n_ops n' = <[so_hash op := op]> (n_ops n) ->
  well_made (n_ops n') (so_hash op) (so_op op).
Proof.
  intros K Od IH E [[h Ds] _] N P M EO. assert (Su : n_ops n ⊆ n_ops n') by (rewrite EO; apply insert_subseteq, N). pose proof (ops_closed _ (no_ops _ _ _ K)) as Cl.
  pose proof (known_past n r c (n_ops n') op K E N P EO) as Pa. pose proof (known_closed _ _ _ K E) as Cd.
  assert (Dsc : forall c1, maybe_replay (horder r) (rorder r) c = Ok c1 -> exists hh, describes (n_ops n) (known c) (c_tree c1) hh).
  { intros c1 Em. eapply replayed_describes; eauto. }
  unfold made_op in M. unfold well_made. destruct (so_op op) as [id pk i ps qs|id i ks ps|id pc ps] eqn:Eo.
  - destruct M as (Nc & c1 & t & Em & Ep). destruct (Dsc _ Em) as (hh & Ds1). exists (known c). split; [exact Pa|]. right.
    exists (c_tree c1), hh. split; [apply (describes_up (n_ops n) (n_ops n') Su Cl); assumption|].
    destruct (push_leaf_spec (c_tree c1) hh id (SKey pk)) as (t' & i' & h' & Ep' & _ & Ad); [apply Ds1|eapply (next_le (n_ops n)); exact Ds1|]. rewrite Ep in Ep'. injection Ep' as <- <-.
    split; [apply Ad|]. assert (Sm : same_members (n_ops n) (known c) (known c)) by (intros m o _ _; reflexivity). rewrite (same_ids _ _ _ _ _ _ _ Ds Ds1 Sm).
    unfold contains_id in Nc. apply bool_decide_eq_false, eq_None_not_Some in Nc. exact Nc.
  - destruct M as (c1 & t & ks' & Em & Mc & Er). destruct (Dsc _ Em) as (hh & Ds1). exists (known c), (c_tree c1), hh. split; [exact Pa|].
    split; [apply (describes_up (n_ops n) (n_ops n') Su Cl); assumption|]. split; [|exact Mc].
    unfold remove_id, leaf_index_for_id in Er. destruct (_ =? 1); [discriminate|]. destruct (t_ids (c_tree c1) !! id) as [i0|] eqn:Z; [|discriminate]. cbn [ok_or rbind] in Er.
    destruct (direct_path _ _) as [dp|]; [|discriminate]. apply rbind_ok in Er as (x1 & _ & Er). apply rbind_ok in Er as (x2 & _ & Er). apply rbind_ok in Er as (x3 & _ & Er). injection Er as _ -> _. reflexivity.
  - destruct M as (c1 & pk & sks & rng & t & k & sks' & rng' & Em & Ek & Ee). destruct (Dsc _ Em) as (hh & Ds1).
    assert (Ei : exists i, t_ids (c_tree c1) !! id = Some i).
    { unfold encrypt_path, leaf_index_for_id in Ee. destruct (t_ids (c_tree c1) !! id) eqn:Z; [eauto|]. cbn [ok_or rbind] in Ee. discriminate. }
    destruct Ei as [i Ei].
    destruct (describes_member (n_ops n) _ _ _ _ _ Ds1 Cd Ei) as (x & p0 & Hx & _ & El).
    rewrite (encrypt_path_wf (c_tree c1) hh id i p0 pk sks rng) in Ee.
    + destruct (enc_versions (c_tree c1) hh 0 i pk rng) as [[vs rng2]|] eqn:Ev; [|discriminate]. injection Ee as _ _ <- _ _.
      exists (known c), (c_tree c1), hh, i, p0, pk, vs, rng, rng2. split; [exact Pa|]. split; [apply (describes_up (n_ops n) (n_ops n') Su Cl); assumption|]. auto 6.
    + apply Ds1.
    + eapply (describes_wfk (n_ops n)); exact Ds1.
    + exact Ei.
    + eapply leafv_lt; [apply Ds1|exact El].
    + exact El.
    + exact Ek.
Qed.

Theorem net_fine n : net_reachable horder rorder n -> orderly (n_ops n) -> all_well (n_ops n) /\ forall r c, n_reps n !! r = Some c -> fine (n_ops n) c.
Proof.
  intros R. induction R as [r0 id pk h c0 E0|n n' R IH St]; intros Od.
  - assert (CA : all_well (n_ops (Net {[ r0 := c0 ]} {[ h := SignedOp h (init_add id pk) ]} []))).
    { intros x o Q. cbn in Q. apply lookup_singleton_Some in Q as [<- <-]. cbn [so_op init_add]. exists ∅. split; [|auto].
      intros y. split; [set_solver|]. intros B. exfalso. apply tc_last in B as [(o' & E' & H)|(z & _ & (o' & E' & H))]; cbn in E';
        apply lookup_singleton_Some in E' as [_ <-]; cbn in H; set_solver. }
    split; [exact CA|]. intros r c E. pose proof (net_reachable_ok horder rorder HH HR _ (nr_start horder rorder r0 id pk h c0 E0)) as K.
    pose proof E as E'. cbn in E'. apply lookup_singleton_Some in E' as [-> ->]. split.
    + eapply head_describes; [exact K|exact Od|exact CA|exact E|eapply init_single; exact E0].
    + unfold cgka_from_init in E0. apply rbind_ok in E0 as (t & _ & E0). injection E0 as <-. reflexivity.
  - pose proof (net_reachable_good horder rorder HH HR _ R) as NG. pose proof (ng_ok _ _ _ NG) as K.
    pose proof (net_reachable_ok horder rorder HH HR _ (nr_step _ _ _ _ R St)) as K'.
    pose proof (step_ops _ _ _ _ St) as Su. pose proof (ops_closed _ (no_ops _ _ _ K)) as Cl.
    assert (Od0 : orderly (n_ops n)) by (eapply orderly_down; [exact Su|exact (no_ops _ _ _ K)|exact Od]). destruct (IH Od0) as [CA F].
    assert (CA' : all_well (n_ops n')).
    { destruct (step_brings _ _ NG St) as [EO|r c op E N P M EO]; [rewrite EO; exact CA|].
      intros x o Q. pose proof Q as Q'. rewrite EO in Q. apply lookup_insert_Some in Q as [[<- <-]|[_ Q]].
      - exact (made_well n n' r c op K Od0 CA E (F _ _ E) N P M EO).
      - eapply (well_made_up (n_ops n) (n_ops n') Su Cl); [exact Q|apply CA, Q]. }
    split; [exact CA'|]. intros r c' E'. pose proof E' as E2.
    assert (Old : forall c, n_reps n !! r = Some c -> fine (n_ops n') c) by (intros c E; exact (fine_up n n' r c K Su E (F _ _ E))).
    assert (NE : forall c r0, n_reps n !! r0 = Some c -> g_heads (c_graph c) <> ∅).
    { intros c r0 E. apply heads_nonempty. eapply cgka_graph_reachable; [apply HH|exact (no_reach _ _ _ K _ _ E)]. }
    assert (M : forall r0 c c1, n_reps n !! r0 = Some c -> outcome (horder r0) (rorder r0) c c1 -> cgka_step (horder r0) (rorder r0) c c1 -> <[r0 := c1]> (n_reps n) !! r = Some c' -> fine (n_ops n') c').
    { intros r0 c c1 E Oc Cs Q. apply lookup_insert_Some in Q as [[<- <-]|[_ Q]]; [|eauto]. pose proof (no_reach _ _ _ K _ _ E) as R0.
      assert (Rg : graph_reachable (c_graph c)) by (eapply cgka_graph_reachable; [apply HH|exact R0]).
      assert (Rg' : graph_reachable (c_graph c1)) by (eapply cgka_graph_reachable; [apply HH|eapply cr_step; [exact R0|exact Cs]]).
      split.
      - destruct Oc as [T Gr _|c2 Em T Gr|Hs].
        + destruct (Old _ E) as [[hh Ds] _]. exists hh. unfold known in *. rewrite T, Gr. exact Ds.
        + destruct (replayed_describes n r0 c c2 K Od0 CA E Em) as [hh Ds]. exists hh. rewrite T. unfold known in *. rewrite Gr.
          apply (describes_up (n_ops n) (n_ops n') Su Cl); [exact (known_closed _ _ _ K E)|exact Ds].
        + eapply head_describes; eauto.
      - pose proof (cgka_step_pending _ _ _ _ (NE _ _ E) Cs) as [A _|A|op A B C].
        + destruct (F _ _ E) as [_ P]. congruence.
        + exact A.
        + exfalso. apply contains_op_false in A. assert (X : g_ops (c_graph c1) <> g_ops (c_graph c)) by (intros X; rewrite X in C; rewrite C, lookup_insert in A; discriminate).
          destruct Oc as [_ Gr _|c2 _ _ Gr|Hs]; [apply X; rewrite Gr; reflexivity..|].
          pose proof (concurrent_heads _ _ _ Rg Rg' A B C). congruence. }
    assert (Fr : forall r0 c h, n_reps n !! r0 = Some c -> n_ops n !! h = None -> contains_op (c_graph c) h = false).
    { intros r0 c h E N. apply contains_op_false. destruct (g_ops (c_graph c) !! h) eqn:Z; [|reflexivity]. rewrite (lookup_weaken _ _ _ _ Z (no_sub _ _ _ K _ _ E)) in N. discriminate. }
    destruct St as [r0 id pk h c N E Ec|r0 c id sks E G|r0 c c1 id pk h x E N Q|r0 c c1 id h x E N Q|r0 c c1 sk h rng x E N Q|r0 c c1 h op x E N Q|r0 c c1 ref content preds sk h rng s o E N Q|r0 c c1 ref content preds sk h rng x E N Q _|r0 c c1 e x E N Q]; cbn [moved sent n_reps] in E'.
    + apply lookup_insert_Some in E' as [[<- <-]|[_ E']]; [|eauto]. split; [eapply head_describes; [exact K'|exact Od|exact CA'|exact E2|eapply init_single; exact Ec]|].
      unfold cgka_from_init in Ec. apply rbind_ok in Ec as (t & _ & Ec). injection Ec as <-. reflexivity.
    + apply (M r0 c (with_new_owner c id sks)); [exact E|apply oc_same; reflexivity|eapply st_owner; reflexivity|exact E'].
    + eapply M; [exact E|eapply add_outcome; exact Q|eapply st_add; eauto|exact E'].
    + eapply M; [exact E|eapply remove_outcome; exact Q|eapply st_remove; eauto|exact E'].
    + eapply M; [exact E|eapply update_outcome; exact Q|eapply st_update; eauto|exact E'].
    + apply lookup_insert_Some in E' as [[<- <-]|[_ E']]; [|eauto]. cbn [moved n_ops] in *.
      assert (so_hash op = h) by (eapply (oo_hash _ (no_ops _ _ _ K)); eauto). subst h.
      pose proof (merge_step _ _ _ _ _ _ Q) as (_ & _ & _ & [(_ & -> & _)|[(_ & _ & -> & _)|(_ & P & Gr)]]); [eauto..|].
      apply bool_decide_eq_true in P. destruct (receive_fine n r0 c op K Od0 CA E (F _ _ E) N P) as (c2 & b & Q' & F2 & _).
      rewrite Q in Q'. injection Q' as -> _.
      assert (U : n_ops n ∪ g_ops (c_graph c2) = n_ops n); [|rewrite U; exact F2].
      apply map_eq. intros y. destruct (n_ops n !! y) as [oy|] eqn:Ey; [apply lookup_union_Some_l, Ey|]. apply lookup_union_None. split; [exact Ey|].
      assert (Z : g_ops (c_graph c) !! y = None) by (destruct (g_ops (c_graph c) !! y) eqn:Z; [rewrite (lookup_weaken _ _ _ _ Z (no_sub _ _ _ K _ _ E)) in Ey; discriminate|reflexivity]).
      destruct Gr as [[_ Gr]|[_ Gr]]; rewrite Gr; [|exact Z]. cbn. apply lookup_insert_None. split; [exact Z|]. intros <-. congruence.
    + eapply M; [exact E|eapply encrypt_outcome; exact Q|eapply st_encrypt; eauto|exact E'].
    + eapply M; [exact E|eapply encrypt_outcome; exact Q|eapply st_encrypt; eauto|exact E'].
    + eapply M; [exact E|apply quiet_outcome; eapply decryption_quiet; exact Q|eapply st_decrypt; eauto|exact E'].
Qed.

Lemma net_well n : net_reachable horder rorder n -> orderly (n_ops n) -> all_well (n_ops n).
Proof. intros R Od. apply net_fine; assumption. Qed.
End net.
