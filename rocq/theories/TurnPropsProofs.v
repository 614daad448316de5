(** Reading and writing in networks in which operations are made in turn. *)
From Coq Require Import Arith Lia.
From stdpp Require Import base list gmap relations.
From Verif Require Import ResModel KeysModel TreeMathModel TreeMathProofs TreeModel TreeSpec TreeOps TreeView TreeProofs TreeInv TreeRun TreePropsProofs TurnTree OpsModel OpsSpec OpsInv OpsProofs OpsEpochs OpsPropsProofs OpsExtend
  CgkaModel CgkaSpec CgkaProofs CgkaReplay CgkaConverge CgkaSound NetSpec NetProofs NetKeys NetAgree NetInv DocKeys TurnSpec TurnLine TurnCalls TurnProofs.

(** The roster after an operation of the line is what its tree holds. *)
Lemma list_split_hash id pk L G T ops pcs l1 o1 r1 l2 o2 r2 : line id pk L G T ops pcs -> L = l1 ++ o1 :: r1 -> L = l2 ++ o2 :: r2 -> so_hash o1 = so_hash o2 -> l1 = l2 /\ o1 = o2 /\ r1 = r2.
Proof.
  intros LL E1 E2 Eh. pose proof (line_nodup _ _ _ _ _ _ _ LL) as ND. clear LL. revert l2 L E1 E2 ND. induction l1 as [|x l1 IH]; intros [|y l2] L -> E2 ND; cbn in *.
  - injection E2 as -> ->. auto.
  - injection E2 as -> ->. apply NoDup_cons in ND as [ND _]. exfalso. apply ND. rewrite Eh. apply elem_of_list_fmap. exists o2. set_solver.
  - injection E2 as -> E2. subst r2. apply NoDup_cons in ND as [ND _]. exfalso. apply ND. rewrite <- Eh. apply elem_of_list_fmap. exists o1. set_solver.
  - injection E2 as -> E2. apply NoDup_cons in ND as [_ ND]. destruct (IH l2 _ eq_refl E2 ND) as (-> & -> & ->). auto.
Qed.
Lemma echo_change t h g o op x t' : Inv t h -> abs_group t g -> echoes t o op x -> op_step t op = Ok (t', x) -> spec_step g op = change g o.
Proof.
  intros V A Ec S. destruct o as [i p li ps aps|i li ks ps|i pc ps]; cbn in Ec.
  - destruct Ec as [-> C]. cbn [spec_step change]. rewrite (contains_id_spec _ _ _ _ V A) in C. apply bool_decide_eq_false in C. rewrite decide_False by exact C. reflexivity.
  - subst op. reflexivity.
  - destruct Ec as (sk & rng & -> & ->). cbn [spec_step change op_step] in *.
    destruct (t_ids t !! i) as [j|] eqn:Ej.
    + unfold pub in S. rewrite (encrypt_path_spec _ _ _ _ sk _ _ V Ej) in S by apply lookup_singleton. destruct (enc_versions t h 0 j sk rng) as [[vs rng']|]; [|discriminate].
      injection S as <- <-. reflexivity.
    + unfold encrypt_path, leaf_index_for_id in S. rewrite Ej in S. cbn in S. discriminate.
Qed.
Lemma roster_line id pk L G T ops pcs h g : line id pk L G T ops pcs -> roster (g_ops G) h g ->
  exists l o rest, L = l ++ o :: rest /\ so_hash o = h /\ forall g1 t1 ops1 pcs1, line id pk (l ++ [o]) g1 t1 ops1 pcs1 -> abs_group t1 g.
Proof.
  intros LL Ro. induction Ro as [h i p E|h g h' o' Ro (l & o & rest & EL & Eh & A) E Ep].
  - destruct (line_first _ _ _ _ _ _ _ LL) as (h0 & rest & EL).
    assert (E1 : g_ops G !! h0 = Some (SignedOp h0 (init_add id pk))) by (apply (line_ops _ _ _ _ _ _ _ LL); rewrite EL; split; [set_solver|reflexivity]).
    assert (h = h0) as -> by (eapply (line_root _ _ _ _ _ _ _ LL); [exact E|exact E1|reflexivity|reflexivity]).
    rewrite E1 in E. injection E as <- <-. exists [], (SignedOp h0 (init_add id pk)), rest. split; [exact EL|]. split; [reflexivity|].
    intros g1 t1 ops1 pcs1 L1. apply line_single in L1 as (? & _ & Et & _). destruct (tree_new_inv id pk) as (t0 & E0 & _ & A). rewrite Et in E0. injection E0 as <-. exact A.
  - apply (line_ops _ _ _ _ _ _ _ LL) in E as [E1 E2]. apply elem_of_list_split in E1 as (l' & rest' & EL').
    destruct (decide (l' = [])) as [->|Nl].
    { exfalso. destruct (line_first _ _ _ _ _ _ _ LL) as (h0 & r0 & E0). rewrite EL' in E0. injection E0 as -> _. cbn in Ep. set_solver. }
    rewrite EL' in LL. destruct (line_prefix _ _ _ _ _ _ _ _ LL Nl) as (g0 & t0 & ops0 & pcs0 & ? & ? & L0 & _).
    destruct (line_head _ _ _ _ _ _ _ L0) as (l1 & o1 & E3 & Hh). destruct (line_follow _ _ _ _ _ _ _ _ _ _ _ _ _ LL L0) as (_ & _ & _ & _ & _ & Pr & _).
    rewrite Pr, Hh in Ep. assert (so_hash o1 = h) as Eo by set_solver.
    assert (Q : l1 = l /\ o1 = o /\ o' :: rest' = rest).
    { eapply (list_split_hash _ _ _ _ _ _ _ _ _ _ _ _ _ LL); [rewrite E3, <- app_assoc; reflexivity|rewrite <- EL'; exact EL|congruence]. }
    destruct Q as (-> & -> & <-). exists l', o', rest'. split; [exact EL'|]. split; [exact E2|]. intros g1 t1 ops1 pcs1 L1.
    apply line_ends in L1 as (g2 & t2 & ops2 & pcs2 & op & y & L2 & _ & _ & _ & Ec & S & _); [|exact Nl]. rewrite E3 in L2. pose proof (A _ _ _ _ L2) as A2.
    destruct (reachable_inv _ _ _ _ _ (line_reach _ _ _ _ _ _ _ L2)) as (ht & V & _).
    destruct (op_step_inv _ _ _ _ _ _ V A2 S) as (h2 & _ & _ & A3 & _). rewrite (echo_change _ _ _ _ _ _ _ V A2 Ec S) in A3. exact A3.
Qed.

(** The root secret of a tree, for a member who has the leaf secret. *)
Lemma root_calm c h : Inv (c_tree c) h -> calm (pcs_key_from_tree_root c).2.
Proof.
  intros V. unfold pcs_key_from_tree_root. pose proof (decrypt_calm _ _ (c_owner c) (c_sks c) V) as K. destruct (decrypt_tree_secret (c_tree c) (c_owner c) (c_sks c)) as [s [k|e| |]]; cbn in *; try exact K.
  destruct (negb _ && _); [|exact K]. pose proof (decrypt_calm _ _ public_id s V) as K2. destruct (decrypt_tree_secret (c_tree c) public_id s) as [s2 r2]. exact K2.
Qed.
Lemma root_found c h g m p : Inv (c_tree c) h -> abs_group (c_tree c) g -> g !! m = Some p -> m = c_owner c \/ m = public_id ->
  good_tree (c_tree c) -> good_sks (c_sks c) -> is_Some (c_sks c !! p) -> is_Some (nkey (c_tree c) h 0) -> exists k, (pcs_key_from_tree_root c).2 = Ok k.
Proof.
  intros V A Em Hm GT GS [s Hs] [rk Hk]. assert (s = p) as -> by apply (GS _ _ Hs). apply A in Em as [i El].
  assert (Ei : t_ids (c_tree c) !! m = Some i) by (apply (inv_ids _ _ V); eauto).
  pose proof (inv_id_range _ _ _ _ V Ei) as Hi.
  assert (D : forall sks, sks_ok sks -> sks !! p = Some p -> exists s' , decrypt_tree_secret (c_tree c) m sks = (s', Ok rk)).
  { intros sks S1 S2. pose proof (decrypt_tree_secret_spec _ _ _ _ _ _ (inv_shape _ _ V) (inv_keyed _ _ V) Ei Hi El S1 S2) as D. rewrite Hk in D. destruct D as (s' & D & _). eauto. }
  unfold pcs_key_from_tree_root. destruct (decide (m = c_owner c)) as [->|N].
  - destruct (D (c_sks c) GS Hs) as [s' ->]. cbn. eauto.
  - destruct Hm as [Hm| ->]; [contradiction|]. destruct (decrypt_tree_secret (c_tree c) (c_owner c) (c_sks c)) as [s1 r1] eqn:E1. pose proof (decrypt_calm _ _ (c_owner c) (c_sks c) V) as K. rewrite E1 in K. cbn in K.
    destruct r1 as [k|e| |]; cbn; [eauto| |destruct K..].
    assert (C : negb (c_owner c =? public_id) && contains_id (c_tree c) public_id = true).
    { apply andb_true_iff. split; [apply negb_true_iff, Nat.eqb_neq; congruence|]. unfold contains_id. apply bool_decide_eq_true. eauto. }
    rewrite C. destruct (D s1) as [s' ->]; [|eapply lookup_weaken; [exact Hs|eapply decrypt_grows; exact E1]|cbn; eauto].
    apply (decrypt_tree_secret_sound _ _ _ _ _ GT GS) in E1 as [E1 _]. exact E1.
Qed.

Lemma line_good id pk L G T ops pcs : line id pk L G T ops pcs -> (forall o, o ∈ L -> sound_op (so_op o)) -> good_tree T.
Proof.
  induction 1 as [h t E|l g t ops pcs o op x t' L IH F P A Ec Q Tt]; intros S.
  - pose proof (good_init id pk (SignedOp h (init_add id pk))) as I. unfold cgka_from_init in I. rewrite E in I. apply (I _ eq_refl).
  - eapply good_tree_apply; [exact Tt|apply S; set_solver|apply IH; intros; apply S; set_solver].
Qed.
Lemma root_nkey t h k : Inv t h -> root_is t k -> is_Some (nkey t h 0).
Proof.
  intros V (v & E & _). pose proof (inv_shape _ _ V) as S. pose proof (sh_h _ _ S). destruct h as [|h]; [lia|]. rewrite (sh_size _ _ S), root_complete in E.
  rewrite (inner_at_shape _ _ _ _ S) in E by (rewrite ?Nat.sub_diag, ?Nat.pow_0_r; lia). injection E as E. cbn [nkey]. rewrite E. eauto.
Qed.

Section turns.
Context (horder : nat -> gset digest -> list digest).
Context (rorder : nat -> gset (member_id * nat) -> list (member_id * nat)).
Context (HH : forall r, some_order (horder r)) (HR : forall r, some_order (rorder r)).
Notation turns := (turns horder rorder).
Notation turn_step := (turn_step horder rorder).

(** ** Receiving. *)
Lemma receive_known n r c h op : turns n -> n_reps n !! r = Some c -> n_ops n !! h = Some op -> (forall p, p ∈ op_preds (so_op op) -> is_Some (g_ops (c_graph c) !! p)) ->
  exists c' b, merge_concurrent_operation (horder r) (rorder r) c op = (c', Ok b) /\ g_ops (c_graph c') !! h = Some op /\ g_ops (c_graph c) ⊆ g_ops (c_graph c').
Proof.
  intros R E Eo Hp. destruct (turns_good _ _ HH HR _ R) as (id & pk & L & [(G & T & ops & pcs & LL & En) B _]). destruct (B _ _ E) as (l & rest & EL & Hl).
  rewrite En in Eo. apply (line_ops _ _ _ _ _ _ _ LL) in Eo as [Eo Eh].
  assert (K : op ∈ l -> exists c' b, merge_concurrent_operation (horder r) (rorder r) c op = (c', Ok b) /\ g_ops (c_graph c') !! h = Some op /\ g_ops (c_graph c) ⊆ g_ops (c_graph c')).
  { intros Ho. destruct Hl as (ops0 & pcs0 & L0 & _). assert (Ec : g_ops (c_graph c) !! so_hash op = Some op) by (apply (line_ops _ _ _ _ _ _ _ L0); auto).
    exists c, false. split; [|split; [congruence|reflexivity]]. unfold merge_concurrent_operation. rewrite (proj2 (contains_some _ _)) by eauto. reflexivity. }
  destruct rest as [|o rest]; [rewrite app_nil_r in EL; subst l; auto|]. subst L.
  destruct (merge_concurrent_operation (horder r) (rorder r) c op) as [c' x] eqn:Q.
  destruct (receive_line _ _ _ _ _ _ _ _ _ _ _ _ _ _ _ LL Hl Eo Q) as [(Ho & -> & ->)|[(-> & -> & (ops1 & pcs1 & L1 & _) & _)|(Ho & -> & ->)]].
  - destruct (K Ho) as (? & ? & Z & Z1 & Z2). injection Z as <- <-. eauto.
  - destruct Hl as (ops0 & pcs0 & L0 & _). exists c', true. split; [reflexivity|]. split; [apply (line_ops _ _ _ _ _ _ _ L1); split; [set_solver|exact Eh]|].
    apply map_subseteq_spec. intros y q Y. apply (line_ops _ _ _ _ _ _ _ L0) in Y as [Y1 Y2]. apply (line_ops _ _ _ _ _ _ _ L1). split; [set_solver|exact Y2].
  - exfalso. apply elem_of_list_split in Ho as (r1 & r2 & ->). destruct Hl as (ops0 & pcs0 & L0 & _).
    replace (l ++ o :: r1 ++ op :: r2) with ((l ++ o :: r1) ++ op :: r2) in LL by (rewrite <- app_assoc; reflexivity).
    destruct (line_prefix _ _ _ _ _ _ _ _ LL) as (g2 & t2 & ops2 & pcs2 & ? & ? & L2 & _); [destruct l; discriminate|].
    destruct (line_follow _ _ _ _ _ _ _ _ _ _ _ _ _ LL L2) as (_ & _ & _ & _ & _ & Pr & _).
    destruct (line_head _ _ _ _ _ _ _ L2) as (l3 & o3 & E3 & H3). destruct (Hp (so_hash o3)) as [q Y]; [rewrite Pr, H3; set_solver|].
    apply (line_ops _ _ _ _ _ _ _ L0) in Y as [Y1 Y2]. pose proof (line_nodup _ _ _ _ _ _ _ L2) as ND. rewrite map_app in ND. apply NoDup_app in ND as (_ & ND & _).
    assert (I3 : o3 ∈ o :: r1).
    { clear -E3. destruct (exists_last (l := o :: r1)) as (l4 & o4 & E4); [discriminate|]. rewrite E4, app_assoc in E3. apply app_inj_tail in E3 as [_ ->]. rewrite E4. set_solver. }
    eapply (ND (so_hash q)); [apply elem_of_list_fmap; eauto|]. rewrite Y2. apply elem_of_list_fmap. eauto.
Qed.
(** Catching up. *)
Lemma catch_up_line id pk L rest : forall l n r c, turns n -> turn_good id pk L n -> n_reps n !! r = Some c -> L = l ++ rest -> has_line id pk l c ->
  exists c', receives (horder r) (rorder r) (n_ops n) c c' /\ has_line id pk L c' /\ turns (moved n r c') /\ c_owner c' = c_owner c /\ c_sks c' = c_sks c.
Proof.
  induction rest as [|o rest IH]; intros l n r c R TG E EL Hl.
  - rewrite app_nil_r in EL. subst l. exists c. split; [apply rs_done|]. split; [exact Hl|]. split; [|auto].
    replace (moved n r c) with n; [exact R|]. destruct TG as [(G & T & ops & pcs & LL & En) _ _]. unfold moved.
    rewrite insert_id by exact E. rewrite union_absorb; [destruct n; reflexivity|]. rewrite En. eapply prefix_sub; [exact LL|symmetry; apply app_nil_r|exact Hl].
  - pose proof TG as [(G & T & ops & pcs & LL & En) _ _]. assert (Eo : n_ops n !! so_hash o = Some o).
    { rewrite En. apply (line_ops _ _ _ _ _ _ _ LL). rewrite EL. split; [set_solver|reflexivity]. }
    destruct (merge_concurrent_operation (horder r) (rorder r) c o) as [c1 x] eqn:Q. pose proof LL as LL'. rewrite EL in LL'.
    pose proof (line_nodup _ _ _ _ _ _ _ LL') as ND. rewrite map_app in ND. cbn [map] in ND. apply NoDup_app in ND as (_ & ND1 & ND2). apply NoDup_cons in ND2 as [ND2 _].
    assert (I : o ∈ l ++ o :: rest) by set_solver.
    destruct (receive_line _ _ _ _ _ _ _ _ _ _ _ _ _ _ _ LL' Hl I Q) as [(Ho & _)|[(_ & -> & H1 & H2 & H3)|(Ho & _)]].
    { exfalso. eapply ND1; [apply elem_of_list_fmap; eauto|]. set_solver. }
    2:{ exfalso. apply ND2. apply elem_of_list_fmap. eauto. }
    assert (R1 : turns (moved n r c1)) by (eapply tn_step; [exact R|]; eapply tu_receive; eauto).
    assert (EL1 : L = (l ++ [o]) ++ rest) by (rewrite <- app_assoc; exact EL).
    assert (TG1 : turn_good id pk L (moved n r c1)).
    { eapply moved_prefix; [exact TG|exact EL1|exact H1|]. intros d Ed. rewrite E in Ed. injection Ed as <-. rewrite H3. split; [exact H2|apply keeps_refl]. }
    assert (En1 : n_ops (moved n r c1) = n_ops n) by (cbn; apply union_absorb; rewrite En; exact (prefix_sub _ _ _ _ _ _ _ _ _ _ LL EL1 H1)).
    destruct (IH (l ++ [o]) (moved n r c1) r c1 R1 TG1) as (c' & Rs & Hc & R2 & O & S); [apply lookup_insert|exact EL1|exact H1|].
    exists c'. rewrite En1 in Rs. split; [eapply rs_next; eauto|]. split; [exact Hc|]. split; [|split; congruence].
    rewrite moved_twice in R2; [exact R2|]. left. rewrite En. exact (prefix_sub _ _ _ _ _ _ _ _ _ _ LL EL1 H1).
Qed.
Lemma catch_up_lemma n r c : turns n -> n_reps n !! r = Some c ->
  exists c', receives (horder r) (rorder r) (n_ops n) c c' /\ informed n c' /\ turns (moved n r c') /\ c_owner c' = c_owner c /\ c_sks c' = c_sks c.
Proof.
  intros R E. destruct (turns_good _ _ HH HR _ R) as (id & pk & L & TG). destruct (tg_rep _ _ _ _ TG _ _ E) as (l & rest & EL & Hl).
  destruct (catch_up_line id pk L rest l n r c R TG E EL Hl) as (c' & A & B & C & D). exists c'. split; [exact A|]. split; [eapply all_informed; eauto|]. auto.
Qed.
End turns.
