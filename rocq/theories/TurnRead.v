(** Who can read and write in a network in which operations are made in turn. *)
From Coq Require Import Arith Lia.
From stdpp Require Import base list gmap relations.
From Verif Require Import ResModel KeysModel TreeMathModel TreeMathSpec TreeMathProofs TreeModel TreeSpec TreeOps TreeView TreeProofs TreeInv TreeRun TreePropsProofs TurnTree OpsModel OpsSpec OpsInv OpsProofs OpsEpochs OpsPropsProofs OpsExtend
  CgkaModel CgkaSpec CgkaProofs CgkaReplay CgkaConverge CgkaSound NetSpec NetProofs NetKeys NetAgree NetInv DocKeys TurnSpec TurnLine TurnCalls TurnProofs TurnPropsProofs.

Lemma root_keeps_good c c' r : good_tree (c_tree c) -> good_sks (c_sks c) -> pcs_key_from_tree_root c = (c', r) -> good_sks (c_sks c').
Proof. intros G S E. apply (root_key_sound _ _ _ G S) in E as [E _]. exact E. Qed.

Section turns.
Context (horder : nat -> gset digest -> list digest).
Context (rorder : nat -> gset (member_id * nat) -> list (member_id * nat)).
Context (HH : forall r, some_order (horder r)) (HR : forall r, some_order (rorder r)).
Notation turns := (turns horder rorder).
Notation turn_step := (turn_step horder rorder).

(** ** Reading. *)
Lemma reads_lemma n r c e g m p : turns n -> n_reps n !! r = Some c -> e ∈ n_cts n -> is_Some (g_ops (c_graph c) !! ec_op e) ->
  roster (n_ops n) (ec_op e) g -> m = c_owner c \/ m = public_id -> g !! m = Some p -> is_Some (c_sks c !! p) ->
  exists c' key, decryption_key_for (rorder r) c e = (c', Ok key) /\ content_decrypt e key = Some (ct_plain (ec_cipher e)).
Proof.
  intros R E He Kn Ro Hm Em Hs. pose proof (turns_net _ _ HH HR _ R) as NR. pose proof (net_reachable_good _ _ HH HR _ NR) as NG.
  destruct (turns_good _ _ HH HR _ R) as (id & pk & L & TG). pose proof TG as [(G & T & ops & pcs & LL & En) B _]. destruct (B _ _ E) as (l & rest & EL & Hl).
  pose proof (ng_local _ _ _ NG _ _ E) as [GT GS _]. pose proof (ng_cts _ _ _ NG _ He) as [_ _ Ek].
  rewrite En in Ro. destruct (roster_line _ _ _ _ _ _ _ _ _ LL Ro) as (l1 & o & l2 & EL1 & Eh & AG).
  pose proof Hl as (ops0 & pcs0 & L0 & Pe & Or & In).
  (* the operation is in the replica's part *)
  assert (Pf : exists rest1, l = (l1 ++ [o]) ++ rest1).
  { destruct Kn as [o' Ko]. apply (line_ops _ _ _ _ _ _ _ L0) in Ko as [Ko1 Ko2]. apply elem_of_list_split in Ko1 as (a & b & Eab).
    assert (Q : a = l1 /\ o' = o /\ b ++ rest = l2).
    { eapply (list_split_hash _ _ _ _ _ _ _ _ _ _ _ _ _ LL); [|exact EL1|congruence]. rewrite EL, Eab, <- app_assoc. reflexivity. }
    destruct Q as (-> & -> & _). exists b. rewrite <- app_assoc. exact Eab. }
  destruct Pf as [rest1 El]. assert (N1 : l1 ++ [o] <> []) by (destruct l1; discriminate).
  pose proof L0 as L0'. rewrite El in L0'. destruct (line_prefix _ _ _ _ _ _ _ _ L0' N1) as (g1 & t1 & ops1 & pcs1 & ? & ? & L1 & _).
  pose proof (AG _ _ _ _ L1) as A1. destruct (reachable_inv _ _ _ _ _ (line_reach _ _ _ _ _ _ _ L1)) as (h1 & V1 & _).
  assert (GT1 : good_tree t1).
  { eapply line_good; [exact L1|]. intros y Hy. eapply (ng_sound _ _ _ NG (so_hash y)). rewrite En. apply (line_ops _ _ _ _ _ _ _ LL). rewrite EL1. split; [set_solver|reflexivity]. }
  assert (In1 : Some (c_init c) = head (l1 ++ [o])) by (rewrite In, El; destruct l1; reflexivity).
  assert (Sub : g_ops (c_graph c) ⊆ n_ops n) by exact (no_sub _ _ _ (ng_ok _ _ _ NG) _ _ E).
  assert (Rc : cgka_reachable (horder r) (rorder r) c) by exact (no_reach _ _ _ (ng_ok _ _ _ NG) _ _ E).
  assert (Rg : graph_reachable (c_graph c)) by (eapply line_graph; exact L0).
  assert (S1 : g_ops g1 ⊆ n_ops n).
  { rewrite En. apply map_subseteq_spec. intros y q Y. apply (line_ops _ _ _ _ _ _ _ L1) in Y as [Y1 Y2]. apply (line_ops _ _ _ _ _ _ _ LL). rewrite EL1. split; [set_solver|exact Y2]. }
  assert (K1 : is_Some (g_ops g1 !! ec_op e)) by (exists o; apply (line_ops _ _ _ _ _ _ _ L1); split; [set_solver|exact Eh]).
  pose proof (line_topsort _ _ _ _ _ _ _ _ L1) as Ts1. rewrite Eh in Ts1.
  assert (V1g : GInv g1) by (apply reachable_ginv; eapply line_graph; exact L1).
  assert (Ts : topsort_for_heads (c_graph c) [ec_op e] = Ok (map alone (l1 ++ [o]))).
  { rewrite <- Ts1. eapply topsort_same_ancestry; [apply reachable_ginv, Rg|exact V1g|exact Sub|exact S1|exact Kn|exact K1]. }
  (* its tree has the root key *)
  assert (Rt : is_Some (nkey t1 h1 0)).
  { destruct Ek as (ro & g' & es & orig & init & t & g'' & A & V' & C & D & Ei & F & Ht & Re & Ri).
    rewrite (topsort_same_ancestry g' g1 (n_ops n) (ec_op e) V' V1g C S1 D K1), Ts1 in Ht. injection Ht as <-.
    destruct (rebuild_line _ _ (rorder r) c _ _ _ _ _ L1 Or In1) as (c1 & Rb & T1 & _). pose proof (rebuild_from_replays _ _ _ _ (HR r) Rb) as Re1.
    destruct (init_kept _ _ c Rc) as [Ki Oi].
    destruct (init_unique _ _ _ _ _ (oo_root _ (no_ops _ _ _ (ng_ok _ _ _ NG))) Ei F (lookup_weaken _ _ _ _ Ki Sub) Oi) as [-> ->].
    destruct (replays_det _ _ _ _ _ _ _ _ _ A (HR r) Re Re1) as [-> _]. rewrite T1 in Ri. eapply root_nkey; eauto. }
  (* deriving the key anew works *)
  assert (D : forall d, quiet c d -> good_sks (c_sks d) -> exists d' k, derive_pcs_key_for_op (rorder r) d (ec_op e) = (d', Ok k)).
  { intros d Q GSd. unfold derive_pcs_key_for_op. rewrite (q_graph _ _ Q), (proj2 (contains_some _ _) Kn), Ts. cbn [negb]. unfold rebuild_pcs_key.
    destruct (rebuild_line _ _ (rorder r) d _ _ _ _ _ L1) as (c1 & Rb & T1 & _ & O1 & K2); [rewrite (q_original _ _ Q); exact Or|rewrite (q_init _ _ Q); exact In1|].
    rewrite Rb. cbn [rbind]. destruct (root_found c1 h1 g m p) as [k Hk].
    - rewrite T1. exact V1.
    - rewrite T1. exact A1.
    - exact Em.
    - rewrite O1, (q_owner _ _ Q). exact Hm.
    - rewrite T1. exact GT1.
    - rewrite K2. exact GSd.
    - rewrite K2. apply (q_sks _ _ Q), Hs.
    - rewrite T1. exact Rt.
    - rewrite Hk. unfold last_first. rewrite map_app. cbn [map]. rewrite last_snoc. cbn [alone]. eauto. }
  assert (P : exists d k, pcs_key_from_hashes (rorder r) c (ec_pcs e) (ec_op e) = (d, Ok k)).
  { unfold pcs_key_from_hashes. destruct (c_pcs c !! ec_pcs e); [eauto|].
    destruct (reachable_inv _ _ _ _ _ (line_reach _ _ _ _ _ _ _ L0)) as (h0 & V0 & _).
    assert (Hp : exists b, has_pcs_key c = Ok b).
    { unfold has_pcs_key. rewrite (has_root_key_spec _ _ (inv_shape _ _ V0)) by exact (ky_ne _ (inv_keyed _ _ V0)). cbn [rbind]. eauto. }
    destruct Hp as [b Hp]. rewrite Hp. destruct b; [|apply D; [apply quiet_refl|exact GS]].
    destruct (pcs_key_from_tree_root c) as [d y] eqn:Q. pose proof (root_calm c h0 V0) as Ca. rewrite Q in Ca. cbn in Ca.
    pose proof (root_quiet _ _ _ Q) as Qd. pose proof (root_keeps_good _ _ _ GT GS Q) as GSd.
    destruct y as [k|er| |]; [|apply D; assumption|destruct Ca..]. destruct (pcs_digest k =? ec_pcs e); [eauto|]. apply D; assumption. }
  destruct P as (d & k & P). destruct (decryption_key_for (rorder r) c e) as [c' y] eqn:Q. pose proof Q as Q'. unfold decryption_key_for in Q'. rewrite P in Q'. injection Q' as _ <-.
  do 2 eexists. split; [reflexivity|]. eapply (net_decrypt_lemma horder rorder HH HR); eauto.
Qed.

(** ** The secrets of the own keys. *)
Lemma own_key_lemma n r c h g p : turns n -> n_reps n !! r = Some c -> c_owner c <> public_id ->
  (forall r' c', n_reps n !! r' = Some c' -> c_owner c' = c_owner c -> r' = r) ->
  roster (n_ops n) h g -> g !! c_owner c = Some p ->
  is_Some (c_sks c !! p) \/ exists h' i ps aps, n_ops n !! h' = Some (SignedOp h' (CAdd (c_owner c) p i ps aps)).
Proof.
  intros R E Np So Ro. revert p. destruct (turns_good _ _ HH HR _ R) as (id & pk & L & [(G & T & ops & pcs & LL & En) _ Ma]).
  induction Ro as [h i q Eo|h g h' o Ro IH Eo Ep]; intros p Ec.
  - apply lookup_singleton_Some in Ec as [-> ->]. right. exists h. do 3 eexists. exact Eo.
  - assert (Eh : so_hash o = h' /\ o ∈ L) by (rewrite En in Eo; apply (line_ops _ _ _ _ _ _ _ LL) in Eo as [A B]; auto). destruct Eh as [Eh Ho].
    destruct o as [hh oo]. cbn in Eh. subst hh. cbn [so_op] in *. destruct oo as [i q li ps aps|i li ks ps|i pc ps]; cbn [change] in Ec.
    + apply lookup_insert_Some in Ec as [[-> ->]|[_ Ec]]; [|auto]. right. exists h'. do 3 eexists. exact Eo.
    + apply lookup_delete_Some in Ec as [_ Ec]. auto.
    + destruct (pc_leaf_pk pc) as [q|] eqn:Eq; [|auto]. apply lookup_insert_Some in Ec as [[-> ->]|[_ Ec]]; [|auto]. left.
      destruct (Ma _ _ _ _ Ho eq_refl) as [Z|(r' & c' & p' & E1 & E2 & E3 & E4)]; [congruence|]. rewrite Eq in E3. injection E3 as <-.
      rewrite (So _ _ E1 E2), E in E1. injection E1 as <-. exact E4.
Qed.

(** ** Writing. *)
Lemma writes_lemma n r c h g p : turns n -> n_reps n !! r = Some c -> g_heads (c_graph c) = {[ h ]} -> roster (n_ops n) h g ->
  g !! c_owner c = Some p -> is_Some (c_sks c !! p) ->
  forall ref content preds sk h' rng, 2 * t_size (c_tree c) <= length rng ->
    exists c' s o, new_app_secret_for (horder r) (rorder r) c ref content preds sk h' rng = (c', Ok (s, o)).
Proof.
  intros R E Hh Ro Em Hs ref content preds sk h' rng Hr. pose proof (turns_net _ _ HH HR _ R) as NR. pose proof (net_reachable_good _ _ HH HR _ NR) as NG.
  destruct (turns_good _ _ HH HR _ R) as (id & pk & L & TG). pose proof TG as [(G & T & ops & pcs & LL & En) B _]. destruct (B _ _ E) as (l & rest & EL & Hl).
  pose proof (ng_local _ _ _ NG _ _ E) as [GT GS _]. pose proof (ng_keys _ _ _ NG _ _ E) as [KG1 KG2].
  rewrite En in Ro. destruct (roster_line _ _ _ _ _ _ _ _ _ LL Ro) as (l1 & o & l2 & EL1 & Eh & AG).
  pose proof (line_settled (horder r) (rorder r) _ _ _ _ Hl) as MR. pose proof Hl as (ops0 & pcs0 & L0 & Pe & Or & In).
  assert (El : l = l1 ++ [o]).
  { destruct (line_head _ _ _ _ _ _ _ L0) as (a & o' & Ea & Hh'). rewrite Hh in Hh'. assert (so_hash o' = h) by set_solver.
    assert (Q : a = l1 /\ o' = o /\ rest = l2).
    { eapply (list_split_hash _ _ _ _ _ _ _ _ _ _ _ _ _ LL); [|exact EL1|congruence]. rewrite EL, Ea, <- app_assoc. reflexivity. }
    destruct Q as (-> & -> & _). exact Ea. }
  subst l. pose proof (AG _ _ _ _ L0) as A0. destruct (reachable_inv _ _ _ _ _ (line_reach _ _ _ _ _ _ _ L0)) as (h0 & V0 & _).
  unfold new_app_secret_for. cbv zeta. unfold has_pcs_key. rewrite (has_root_key_spec _ _ (inv_shape _ _ V0)) by exact (ky_ne _ (inv_keyed _ _ V0)). cbn [rbind].
  destruct (bool_decide (is_Some (nkey (c_tree c) h0 0)) && has_single_head (c_graph c) && (size (g_add_heads (c_graph c)) <? 2)) eqn:Hp.
  - apply andb_true_iff in Hp as [Hp _]. apply andb_true_iff in Hp as [Hp _]. apply bool_decide_eq_true in Hp.
    destruct (root_found c h0 g (c_owner c) p V0 A0 Em (or_introl eq_refl) GT GS Hs Hp) as [k Hk].
    destruct (pcs_key_from_tree_root c) as [c1 x] eqn:Q. cbn in Hk. subst x. assert (P12 : c_pcs c1 = c_pcs c /\ c_pcs_ops c1 = c_pcs_ops c) by (apply root_graph in Q as [sks' ->]; auto). destruct P12 as [P1 P2].
    destruct (c_pcs c1 !! pcs_digest k) as [k'|] eqn:Ck.
    + rewrite P1 in Ck. destruct (KG1 _ _ Ck) as [_ [oh Eoh]]. rewrite P2, Eoh. eauto.
    + rewrite (q_graph _ _ (root_quiet _ _ _ Q)), Hh. assert (Hp' : horder r {[h]} = [h]).
      { apply Permutation_singleton_r. rewrite (HH r _), elements_singleton. reflexivity. }
      rewrite Hp'. cbn [c_pcs_ops insert_pcs_key]. rewrite lookup_insert. eauto.
  - unfold cgka_update. rewrite MR. apply A0 in Em as [i Eli]. assert (Ei : t_ids (c_tree c) !! c_owner c = Some i) by (apply (inv_ids _ _ V0); eauto).
    unfold update_identity. assert (C : contains_id (c_tree c) (c_owner c) = true) by (unfold contains_id; apply bool_decide_eq_true; eauto). rewrite C.
    cbn [c_tree c_sks set_sks]. rewrite (encrypt_path_spec _ _ _ _ (pub sk) _ _ V0 Ei) by apply lookup_insert.
    destruct (enc_versions_total (c_tree c) h0 0 i (pub sk) rng) as [[vs rng'] EV].
    { pose proof (sh_size _ _ (inv_shape _ _ V0)) as Sz. assert (h0 <= t_size (c_tree c)); [|lia]. rewrite Sz. pose proof (complete_size_alt h0). pose proof (pow2_gt h0). lia. }
    rewrite EV. cbn [c_pcs_ops insert_pcs_key so_hash]. rewrite lookup_insert. eauto.
Qed.
End turns.

(** Every operation has one roster. *)
Lemma roster_exists_line id pk L G T ops pcs : line id pk L G T ops pcs -> forall M, (forall o, o ∈ L -> M !! so_hash o = Some o) ->
  forall o, o ∈ L -> exists g, roster M (so_hash o) g.
Proof.
  induction 1 as [h t E|l g t ops pcs o op x t' L IH F P A Ec Q Tt]; intros M HM p Hp.
  - apply elem_of_list_singleton in Hp as ->. eexists. apply ro_first. apply HM. set_solver.
  - apply elem_of_app in Hp as [Hp|Hp]; [apply IH; [intros; apply HM; set_solver|exact Hp]|]. apply elem_of_list_singleton in Hp as ->.
    destruct (line_head _ _ _ _ _ _ _ L) as (l0 & o0 & E0 & Hh). destruct (IH M) with (o := o0) as [gr Hg]; [intros; apply HM; set_solver|rewrite E0; set_solver|].
    eexists. eapply ro_next; [exact Hg|apply HM; set_solver|]. rewrite P. exact Hh.
Qed.
Lemma roster_fun_line id pk L G T ops pcs h g g' : line id pk L G T ops pcs -> roster (g_ops G) h g -> roster (g_ops G) h g' -> g = g'.
Proof.
  intros LL R R'. destruct (roster_line _ _ _ _ _ _ _ _ _ LL R) as (l & o & rest & EL & Eh & A). destruct (roster_line _ _ _ _ _ _ _ _ _ LL R') as (l' & o' & rest' & EL' & Eh' & A').
  destruct (list_split_hash _ _ _ _ _ _ _ _ _ _ _ _ _ LL EL EL') as (<- & <- & _); [congruence|].
  replace L with ((l ++ [o]) ++ rest) in LL by (rewrite <- app_assoc; symmetry; exact EL). destruct (line_prefix _ _ _ _ _ _ _ _ LL) as (g0 & t0 & ops0 & pcs0 & ? & ? & L0 & _); [destruct l; discriminate|].
  specialize (A _ _ _ _ L0). specialize (A' _ _ _ _ L0). apply map_eq. intros i. apply option_eq. intros p. rewrite (A i p), (A' i p). reflexivity.
Qed.
