(** Networks whose group only grows: every replay works and gives the members' tree. *)
From Coq Require Import Arith Lia.
From stdpp Require Import base list gmap relations.
From Verif Require Import ResModel KeysModel TreeMathModel TreeMathSpec TreeMathProofs TreeModel TreeSpec TreeView OpsModel OpsSpec OpsInv OpsProofs OpsPropsProofs
  CgkaModel CgkaSpec CgkaProofs CgkaReplay CgkaConverge CgkaRow NetSpec NetProofs NetKeys GrowSpec CgkaGrow.

Lemma only_grows_mono ops ops' : ops ⊆ ops' -> only_grows ops' -> only_grows ops.
Proof.
  intros S [A B]. split.
  - intros h o id i ks ps E. eapply A. eapply lookup_weaken; eauto.
  - intros h h' o o' id pk pk' i i' ps ps' qs qs' E E'. eapply B; eapply lookup_weaken; eauto.
Qed.

(** A part that is closed under predecessors keeps the order of what it holds. *)
Lemma before_down g G : GInv g -> g_ops g ⊆ g_ops G -> forall x y, before G x y -> is_Some (g_ops g !! y) ->
  before g x y /\ is_Some (g_ops g !! x).
Proof.
  intros V S. assert (One : forall x y, pred_of G x y -> is_Some (g_ops g !! y) -> pred_of g x y /\ is_Some (g_ops g !! x)).
  { intros x y (o & Eo & Hx) [o' Eo']. rewrite (lookup_weaken _ _ _ _ Eo' S) in Eo. injection Eo as ->.
    assert (P : pred_of g x y) by (exists o; auto). split; [exact P|]. eapply (gi_closed _ V); exact P. }
  intros x y B. induction B as [x y P|x y z P _ IH]; intros Hz.
  - destruct (One _ _ P Hz). split; [apply tc_once; assumption|assumption].
  - destruct (IH Hz) as [Bz Hy]. destruct (One _ _ P Hy). split; [eapply tc_l; eauto|assumption].
Qed.

Lemma update_fits_down g G o : GInv g -> g_ops g ⊆ g_ops G -> is_Some (g_ops g !! so_hash o) -> update_fits G o -> update_fits g o.
Proof.
  intros V S Ho. unfold update_fits. destruct (so_op o); auto. intros (Fit & A & Sz & HA). split; [exact Fit|]. exists A. split; [exact Sz|].
  intros a Ha. destruct (HA a Ha) as (B & oa & Ea & Add). destruct (before_down g G V S _ _ B Ho) as [Bg [oa' Ea']]. split; [exact Bg|].
  exists oa'. split; [exact Ea'|]. rewrite (lookup_weaken _ _ _ _ Ea' S) in Ea. injection Ea as ->. exact Add.
Qed.
Lemma update_fits_up G G' o : g_ops G ⊆ g_ops G' -> update_fits G o -> update_fits G' o.
Proof.
  intros S. unfold update_fits. destruct (so_op o); auto. intros (Fit & A & Sz & HA). split; [exact Fit|]. exists A. split; [exact Sz|].
  intros a Ha. destruct (HA a Ha) as (B & oa & Ea & Add). split; [eapply before_mono; eauto|]. exists oa. split; [eapply lookup_weaken; eauto|exact Add].
Qed.

(** ** One replica *)
Section replica.
Context (horder : gset digest -> list digest).
Context (rorder : gset (member_id * nat) -> list (member_id * nat)).
Context (HH : some_order horder) (HR : some_order rorder).

(** A replica that only knows operations of a growing group. *)
Record growing (c : cgka) : Prop := {
  gg_reach : cgka_reachable horder rorder c;
  gg_root : single_root (c_graph c);
  gg_unordered : unordered_preds (c_graph c);
  gg_grows : only_grows (g_ops (c_graph c));
  gg_fits h o : g_ops (c_graph c) !! h = Some o -> update_fits (c_graph c) o
}.

Lemma growing_epochs c : growing c -> exists es, topsort_graph (c_graph c) horder = Ok es /\
  good_replay (c_graph c) (elements (g_heads (c_graph c))) es /\ forall o, o ∈ concat es <-> g_ops (c_graph c) !! so_hash o = Some o.
Proof.
  intros [R SR _ _ _]. pose proof (cgka_graph_reachable horder rorder c HH R) as Rg.
  destruct (replay_same_lemma _ _ horder horder Rg Rg eq_refl SR HH HH) as (es & E & _ & GR & L). eauto.
Qed.

Lemma growing_replay c : growing c -> exists es c0 c1 h ls, topsort_graph (c_graph c) horder = Ok es /\
  cgka_from_init (c_original c).1 (c_original c).2 (c_init c) = Ok c0 /\
  apply_epochs rorder c0 es = Ok c1 /\ grown c1 h ls (concat es) /\ members_tree (g_ops (c_graph c)) (c_tree c1) /\
  (forall o, o ∈ concat es <-> g_ops (c_graph c) !! so_hash o = Some o) /\ NoDup (concat es).
Proof.
  intros G. destruct (growing_epochs c G) as (es & E & GR & L). destruct G as [R SR _ OG UF].
  destruct (init_kept horder rorder c R) as [I1 I2].
  assert (V : GInv (c_graph c)) by (apply reachable_ginv; eapply cgka_graph_reachable; eauto).
  destruct (cgka_from_init (c_original c).1 (c_original c).2 (c_init c)) as [c0|e| |] eqn:E0.
  2-4: exfalso; unfold cgka_from_init in E0; destruct (tree_new _ _) eqn:Et; cbn [rbind] in E0; try discriminate;
       destruct (TreeView.tree_new_spec (c_original c).1 (c_original c).2) as (t & Et' & _); congruence.
  destruct (order_replays (c_graph c) es L GR (gi_hash _ V) OG UF rorder HR _ _ _ _ I1 I2 SR E0) as (c1 & h & ls & E1 & G1).
  exists es, c0, c1, h, ls. split; [exact E|]. split; [reflexivity|]. split; [exact E1|]. split; [exact G1|].
  split; [|split; [exact L|apply (gre_once _ _ _ GR)]]. eapply grown_members; [exact L|apply (gi_hash _ V)|exact G1].
Qed.

Lemma grown_graph c h ls g es : grown c h ls (concat es) -> GInv g -> (forall o, o ∈ concat es <-> g_ops g !! so_hash o = Some o) -> g_ops (c_graph c) = g_ops g.
Proof.
  intros G V L. apply map_eq. intros x. destruct (g_ops g !! x) as [o|] eqn:E.
  - pose proof (gi_hash _ V _ _ E) as <-. apply L in E.
    assert (K : contains_op (c_graph c) (so_hash o) = true) by (apply (gw_ops _ _ _ _ G), elem_of_list_fmap; eauto).
    apply bool_decide_eq_true in K as [o' K]. rewrite K. pose proof (gw_of _ _ _ _ G _ _ K) as K'. apply L in K', E.
    rewrite (gi_hash _ (reachable_ginv _ (gw_reach _ _ _ _ G)) _ _ K) in K'. congruence.
  - destruct (g_ops (c_graph c) !! x) as [o|] eqn:K; [|reflexivity]. exfalso. pose proof (gw_of _ _ _ _ G _ _ K) as K'. apply L in K'.
    rewrite (gi_hash _ (reachable_ginv _ (gw_reach _ _ _ _ G)) _ _ K) in K'. congruence.
Qed.

Lemma growing_rebuild c : growing c -> exists es c', topsort_graph (c_graph c) horder = Ok es /\ rebuild_from rorder c es = Ok c' /\
  members_tree (g_ops (c_graph c)) (c_tree c') /\ (exists h, shape (c_tree c') h) /\ g_heads (c_graph c') = g_heads (c_graph c).
Proof.
  intros G. destruct (growing_replay c G) as (es & c0 & c1 & h & ls & E & E0 & E1 & G1 & M & L & _).
  destruct (apply_epochs_core rorder rorder HR HR es c0 (with_new_owner c0 (c_owner c) (c_sks c)) c1) as (d & Ed & [T Gr]); [split; reflexivity|exact E1|].
  exists es, d. split; [exact E|]. unfold rebuild_from. rewrite E0. cbn [rbind]. split; [exact Ed|]. rewrite <- T. split; [exact M|].
  split; [exists h; apply (rw_shape _ _ _ (gw_row _ _ _ _ G1))|]. rewrite <- Gr.
  assert (Rg : graph_reachable (c_graph c)) by (eapply cgka_graph_reachable; [exact HH|apply (gg_reach _ G)]).
  apply same_ops_same_graph_lemma; [apply (gw_reach _ _ _ _ G1)|exact Rg|]. eapply grown_graph; [exact G1|apply reachable_ginv, Rg|exact L].
Qed.

(** Whatever tree a replica with one head has is the members' tree. *)
Lemma growing_canonical c t : growing c -> canonical horder rorder c t -> members_tree (g_ops (c_graph c)) t /\
  exists h ls, rowed t h ls /\ found t ls /\ only t (map l_id ls) /\
    forall A : gset digest, (forall a, a ∈ A <-> exists o, g_ops (c_graph c) !! a = Some o /\ is_add (so_op o) = true) -> length ls = size A.
Proof.
  intros G (es' & g & E' & Rp). destruct (growing_replay c G) as (es & c0 & c1 & h & ls & E & E0 & E1 & G1 & M & L & ND).
  rewrite E in E'. injection E' as <-.
  assert (Rp' : replays rorder (c_original c) (c_init c) es (c_tree c1) (c_graph c1)) by (exists c0, c1; auto).
  destruct (replays_det _ _ _ _ _ _ _ _ _ HR HR Rp Rp') as [-> _]. split; [exact M|]. exists h, ls.
  destruct G1 as [Rw Fo On Nd Ids _ _ _ _]. split; [exact Rw|]. split; [exact Fo|]. split; [exact On|]. intros A HA.
  rewrite <- (map_length l_id), Ids, added_ids_length, <- (map_length so_hash). unfold size, set_size. cbn. apply Permutation_length, NoDup_Permutation.
  - assert (V : GInv (c_graph c)) by (apply reachable_ginv; eapply cgka_graph_reachable; [exact HH|apply (gg_reach _ G)]).
    apply NoDup_fmap_2_strong; [|apply NoDup_filter, ND]. intros x y Hx Hy Exy. apply elem_of_list_filter in Hx as [_ Hx]. apply elem_of_list_filter in Hy as [_ Hy].
    apply L in Hx, Hy. rewrite Exy in Hx. congruence.
  - apply NoDup_elements.
  - assert (V : GInv (c_graph c)) by (apply reachable_ginv; eapply cgka_graph_reachable; [exact HH|apply (gg_reach _ G)]).
    intros x. rewrite elem_of_elements, HA. rewrite elem_of_list_fmap. split.
    + intros (o & -> & Ho). apply elem_of_list_filter in Ho as [Ad Ho]. apply L in Ho. eauto.
    + intros (o & Eo & Ad). pose proof (gi_hash _ V _ _ Eo) as <-. exists o. split; [reflexivity|]. apply elem_of_list_filter. split; [exact Ad|]. apply L, Eo.
Qed.

Lemma growing_maybe_replay c c1 : growing c -> maybe_replay horder rorder c = Ok c1 -> canonical horder rorder c (c_tree c1).
Proof.
  intros G Em. destruct G as [R SR U _ _]. eapply maybe_replay_canonical; eauto. apply quiescent_canonical_inv; assumption.
Qed.

Lemma has_root_key_ok t h : shape t h -> exists b, has_root_key t = Ok b.
Proof.
  intros Sh. pose proof (sh_h _ _ Sh). destruct h as [|h]; [lia|]. unfold has_root_key. cbv zeta.
  rewrite (sh_size _ _ Sh), root_complete, is_leaf_node_S.
  rewrite (inner_at_shape _ _ _ _ Sh) by (rewrite ?Nat.sub_diag, ?Nat.pow_0_r; lia). cbn [rbind]. eauto.
Qed.

(** A replay happens with several heads only, so it never has to read the group key. *)
Lemma growing_replay_ok c : growing c -> exists c1, maybe_replay horder rorder c = Ok c1.
Proof.
  intros G. unfold maybe_replay. destruct (should_replay c) eqn:Es; [|eauto].
  assert (Hs : has_single_head (c_graph c) = false).
  { unfold should_replay in Es. apply andb_true_iff in Es as [_ Es]. apply orb_true_iff in Es as [Es|Es].
    - eapply pending_heads; eauto. apply (gg_reach _ G).
    - apply negb_true_iff. exact Es. }
  destruct (growing_rebuild c G) as (es & c' & Et & Er & _ & [h Sh] & Hd). unfold replay_ops_graph. rewrite Et. cbn [rbind].
  unfold rebuild_cgka. rewrite Er. cbn [rbind]. destruct (has_root_key_ok _ _ Sh) as [b Eb].
  assert (Hp : has_pcs_key c' = Ok false).
  { unfold has_pcs_key. rewrite Eb. cbn [rbind]. unfold has_single_head in Hs |- *. rewrite Hd, Hs. rewrite andb_false_r. reflexivity. }
  rewrite Hp. cbn [rbind]. eauto.
Qed.
End replica.

(** ** How operations are made *)
Definition made_update ho ro (c : cgka) (op : signed_op) : Prop := forall id pc ps, so_op op = CUpdate id pc ps ->
  exists c1 pk sks rng t k sks' rng', maybe_replay ho ro c = Ok c1 /\ encrypt_path (c_tree c1) id pk sks rng = Ok (t, k, pc, sks', rng').
Definition made ho ro (c c' : cgka) (h : digest) : Prop :=
  (exists op, so_hash op = h /\ op_preds (so_op op) = list_to_set (ho (g_heads (c_graph c))) /\ c_graph c' = add_local_op (c_graph c) op /\ made_update ho ro c op) \/
  c_graph c' = c_graph c.

Lemma add_made ho ro c id pk h c' x : cgka_add ho ro c id pk h = (c', x) -> made ho ro c c' h.
Proof.
  unfold cgka_add. destruct (contains_id _ _); [intros Q; injection Q as <- <-; right; reflexivity|].
  destruct (maybe_replay ho ro c) as [c1|e| |] eqn:Em; intros Q; [|injection Q as <- <-; right; reflexivity..].
  apply maybe_replay_graph in Em as (G & _). destruct (push_leaf _ _ _) as [[t i]|e| |]; injection Q as <- <-; [|right; cbn; exact G..].
  left. cbn [c_graph set_graph set_tree set_sks insert_pcs_key]. rewrite G. eexists. split; [|split; [|split; [reflexivity|]]]; [reflexivity..|].
  intros id' pc ps Z. discriminate.
Qed.
Lemma remove_made ho ro c id h c' x : cgka_remove ho ro c id h = (c', x) -> made ho ro c c' h.
Proof.
  unfold cgka_remove. destruct (negb _); [intros Q; injection Q as <- <-; right; reflexivity|].
  destruct (maybe_replay ho ro c) as [c1|e| |] eqn:Em; intros Q; [|injection Q as <- <-; right; reflexivity..].
  apply maybe_replay_graph in Em as (G & _). destruct (_ =? 1); [injection Q as <- <-; right; exact G|].
  destruct (remove_id _ _) as [[t [i ks]]|e| |]; injection Q as <- <-; [|right; cbn; exact G..].
  left. cbn [c_graph set_graph set_tree set_sks insert_pcs_key]. rewrite G. eexists. split; [|split; [|split; [reflexivity|]]]; [reflexivity..|].
  intros id' pc ps Z. discriminate.
Qed.
Lemma update_made ho ro c sk h rng c' x : cgka_update ho ro c sk h rng = (c', x) -> made ho ro c c' h.
Proof.
  unfold cgka_update. destruct (maybe_replay ho ro c) as [c1|e| |] eqn:Em; intros Q; [|injection Q as <- <-; right; reflexivity..].
  pose proof (maybe_replay_graph _ _ _ _ Em) as (G & _).
  destruct (update_identity _ _ _) as [[[id pk] sk']|e| |]; [|injection Q as <- <-; right; cbn; exact G..].
  destruct (encrypt_path _ _ _ _ _) as [[[[[t k] path] sks] rng']|e| |] eqn:Ee; injection Q as <- <-; [|right; cbn; exact G..].
  left. cbn [c_graph set_graph set_tree set_sks insert_pcs_key]. rewrite G. eexists. split; [|split; [|split; [reflexivity|]]]; [reflexivity..|].
  intros id' pc ps Z. injection Z as <- <- <-. cbn in Ee. eauto 12.
Qed.
Lemma new_app_secret_made ho ro c ref content preds sk h rng c' x : new_app_secret_for ho ro c ref content preds sk h rng = (c', x) -> made ho ro c c' h.
Proof.
  unfold new_app_secret_for. destruct (has_pcs_key c) as [[]|e| |].
  3-5: intros Q; injection Q as <- <-; right; reflexivity.
  - destruct (pcs_key_from_tree_root c) as [c1 r1] eqn:Er. apply root_graph in Er as [sks ->].
    destruct r1 as [k|e| |]; [|intros Q; injection Q as <- <-; right; reflexivity..].
    destruct (c_pcs _ !! _); [|destruct (ho _)]; destruct (c_pcs_ops _ !! _); intros Q; injection Q as <- <-; right; reflexivity.
  - destruct (cgka_update _ _ _ _ _ _) as [c1 r1] eqn:Eu. apply update_made in Eu.
    destruct r1 as [[[k op] rng']|e| |]; [|intros Q; injection Q as <- <-; exact Eu..].
    destruct (c_pcs_ops _ !! _); intros Q; injection Q as <- <-; exact Eu.
Qed.

Section net.
Context (horder : nat -> gset digest -> list digest).
Context (rorder : nat -> gset (member_id * nat) -> list (member_id * nat)).
Context (HH : forall r, some_order (horder r)) (HR : forall r, some_order (rorder r)).

Inductive new_op (n n' : network) : Prop :=
| no_none : n_ops n' = n_ops n -> new_op n n'
| no_one r c op : n_reps n !! r = Some c -> n_ops n !! so_hash op = None -> op_preds (so_op op) = g_heads (c_graph c) ->
    made_update (horder r) (rorder r) c op -> n_ops n' = <[so_hash op := op]> (n_ops n) -> new_op n n'.

Lemma made_new n n' r c c' h : net_ok horder rorder n -> n_reps n !! r = Some c -> n_ops n !! h = None -> made (horder r) (rorder r) c c' h ->
  n_ops n' = n_ops n ∪ g_ops (c_graph c') -> new_op n n'.
Proof.
  intros K E N M EO. pose proof (no_sub _ _ _ K _ _ E) as S. destruct M as [(op & <- & P & G & U)|G].
  - eapply (no_one _ _ r c op); [exact E|exact N|rewrite P; apply horder_set, HH|exact U|]. rewrite EO, G. cbn [add_local_op add_op_and_update_heads g_ops].
    apply map_eq. intros x. rewrite lookup_union. destruct (decide (x = so_hash op)) as [-> |Nx].
    + rewrite N, !lookup_insert. reflexivity.
    + rewrite !lookup_insert_ne by auto. destruct (n_ops n !! x) eqn:Q; [destruct (g_ops _ !! x); reflexivity|].
      destruct (g_ops (c_graph c) !! x) eqn:Q'; [|reflexivity]. rewrite (lookup_weaken _ _ _ _ Q' S) in Q. discriminate.
  - apply no_none. rewrite EO, G. apply union_absorb, S.
Qed.

Lemma net_step_new n n' : net_ok horder rorder n -> net_step horder rorder n n' -> new_op n n'.
Proof.
  intros K St.
  destruct St as [r id pk h c N E Ec|r c id sks E G|r c c' id pk h x E N Q|r c c' id h x E N Q|r c c' sk h rng x E N Q|r c c' h op x E N Q|r c c' ref content preds sk h rng s o E N Q|r c c' ref content preds sk h rng x E N Q _|r c c' e x E N Q].
  - apply no_none. cbn [moved n_ops]. rewrite (init_graph _ _ _ _ Ec). apply union_absorb, map_singleton_subseteq_l, E.
  - apply no_none. cbn [moved n_ops]. apply union_absorb. exact (no_sub _ _ _ K _ _ E).
  - eapply made_new; [exact K|exact E|exact N|eapply add_made; exact Q|reflexivity].
  - eapply made_new; [exact K|exact E|exact N|eapply remove_made; exact Q|reflexivity].
  - eapply made_new; [exact K|exact E|exact N|eapply update_made; exact Q|reflexivity].
  - apply no_none. cbn [moved n_ops]. pose proof (no_sub _ _ _ K _ _ E) as S. apply union_absorb.
    assert (so_hash op = h) by (eapply (oo_hash _ (no_ops _ _ _ K)); eauto). subst h.
    assert (Ins : <[so_hash op := op]> (g_ops (c_graph c)) ⊆ n_ops n).
    { apply map_subseteq_spec. intros y o Qy. apply lookup_insert_Some in Qy as [[<- <-]|[_ Qy]]; [exact N|]. eapply lookup_weaken; eauto. }
    apply merge_step in Q as (_ & _ & _ & [(_ & -> & _)|[(_ & _ & -> & _)|(_ & _ & [[_ G]|[_ G]])]]); try (rewrite G); try exact S. exact Ins.
  - eapply made_new; [exact K|exact E|exact N|eapply new_app_secret_made; exact Q|reflexivity].
  - eapply made_new; [exact K|exact E|exact N|eapply new_app_secret_made; exact Q|reflexivity].
  - apply no_none. cbn [moved n_ops]. apply decryption_graph in Q as [-> _]. apply union_absorb. exact (no_sub _ _ _ K _ _ E).
Qed.

Lemma replica_growing n r c : net_ok horder rorder n -> only_grows (n_ops n) -> (forall h o, n_ops n !! h = Some o -> update_fits (all_ops (n_ops n)) o) ->
  n_reps n !! r = Some c -> growing (horder r) (rorder r) c.
Proof.
  intros K OG UF E. pose proof (no_sub _ _ _ K _ _ E) as S. pose proof (no_reach _ _ _ K _ _ E) as R.
  assert (V : GInv (c_graph c)) by (apply reachable_ginv; eapply cgka_graph_reachable; [apply HH|exact R]).
  constructor.
  - exact R.
  - eapply (single_root_mono _ (all_ops (n_ops n))); [exact S|apply (oo_root _ (no_ops _ _ _ K))].
  - eapply (unordered_mono _ (all_ops (n_ops n))); [exact S|apply (oo_unordered _ (no_ops _ _ _ K))].
  - eapply only_grows_mono; eauto.
  - intros h o Eo. eapply (update_fits_down _ (all_ops (n_ops n))); [exact V|exact S|rewrite (gi_hash _ V _ _ Eo); eauto|]. eapply UF. eapply lookup_weaken; eauto.
Qed.

Lemma update_was_made n r c op G' : net_ok horder rorder n -> growing (horder r) (rorder r) c -> n_reps n !! r = Some c -> op_preds (so_op op) = g_heads (c_graph c) ->
  made_update (horder r) (rorder r) c op -> n_ops n ⊆ g_ops G' -> g_ops G' !! so_hash op = Some op -> update_fits G' op.
Proof.
  intros K G E P M S Eop. unfold update_fits. destruct (so_op op) as [| |id pc ps] eqn:Eo; try exact I.
  destruct (M _ _ _ Eo) as (c1 & pk & sks & rng & t & k & sks' & rng' & Em & Ee).
  pose proof (growing_maybe_replay _ _ (HH r) (HR r) c c1 G Em) as Cn.
  destruct (growing_canonical _ _ (HH r) (HR r) c _ G Cn) as (_ & h & ls & Rw & Fo & On & Sz).
  destruct (encrypt_fits _ _ _ _ _ _ _ _ _ _ _ _ Rw Fo On Ee) as [Hi Fit]. split; [exact Fit|].
  set (A := dom (filter (fun p : digest * signed_op => is_add (so_op p.2) = true) (g_ops (c_graph c))) : gset digest). exists A.
  assert (HA : forall a, a ∈ A <-> exists o, g_ops (c_graph c) !! a = Some o /\ is_add (so_op o) = true).
  { intros a. unfold A. rewrite elem_of_dom. split.
    - intros [o Q]. apply map_filter_lookup_Some in Q. eauto.
    - intros (o & Ea & Q). exists o. apply map_filter_lookup_Some. auto. }
  rewrite <- (Sz _ HA). split; [exact Hi|]. intros a Ha. apply HA in Ha as (oa & Ea & Ad).
  pose proof (no_sub _ _ _ K _ _ E) as Sub.
  assert (Rg : graph_reachable (c_graph c)) by (eapply cgka_graph_reachable; [apply HH|apply (gg_reach _ _ _ G)]).
  split; [|exists oa; split; [eapply lookup_weaken; [exact Ea|]; transitivity (n_ops n); assumption|exact Ad]].
  destruct (some_head_lemma _ Rg a ltac:(eauto)) as (k' & Hk & Rk).
  assert (Last : pred_of G' k' (so_hash op)) by (exists op; split; [exact Eop|rewrite Eo, P; exact Hk]).
  assert (Bg : g_ops (c_graph c) ⊆ g_ops G') by (transitivity (n_ops n); assumption).
  apply rtc_tc in Rk as [-> |Rk]; [apply tc_once, Last|]. eapply tc_r; [eapply (before_mono (c_graph c)); [exact Bg|exact Rk]|exact Last].
Qed.

Lemma growing_net n : net_reachable horder rorder n -> only_grows (n_ops n) -> forall h o, n_ops n !! h = Some o -> update_fits (all_ops (n_ops n)) o.
Proof.
  intros R. induction R as [r id pk h c E|n n' R IH St].
  - intros _ x o Q. cbn in Q. apply lookup_singleton_Some in Q as [<- <-]. exact I.
  - pose proof (net_reachable_ok horder rorder HH HR _ R) as K. destruct (net_step_new _ _ K St) as [EO|r c op E N P M EO].
    + rewrite EO. exact IH.
    + intros OG. assert (Su : n_ops n ⊆ n_ops n') by (rewrite EO; apply insert_subseteq, N).
      assert (OG0 : only_grows (n_ops n)) by (eapply only_grows_mono; eauto).
      intros h o Q. rewrite EO in Q. apply lookup_insert_Some in Q as [[<- <-]|[_ Q]].
      * eapply update_was_made; [exact K|eapply replica_growing; eauto|exact E|exact P|exact M|exact Su|]. cbn. rewrite EO. apply lookup_insert.
      * eapply update_fits_up; [|eapply IH; eauto]. exact Su.
Qed.

Lemma net_growing n r c : net_reachable horder rorder n -> only_grows (n_ops n) -> n_reps n !! r = Some c -> growing (horder r) (rorder r) c.
Proof.
  intros R OG E. eapply replica_growing; [apply (net_reachable_ok horder rorder HH HR), R|exact OG|apply growing_net; [exact R|exact OG]|exact E].
Qed.
End net.
