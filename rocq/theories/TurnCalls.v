(** What calls do to a replica whose history has no concurrency. *)
From Coq Require Import Arith Lia.
From stdpp Require Import base list gmap relations.
From Verif Require Import ResModel KeysModel TreeMathModel TreeModel TreeSpec TreeOps TreeProofs TreeInv TreeRun TreePropsProofs TurnTree OpsModel OpsSpec OpsInv OpsProofs OpsEpochs OpsPropsProofs OpsExtend
  CgkaModel CgkaSpec CgkaProofs CgkaReplay CgkaConverge CgkaSound NetSpec NetProofs NetKeys NetAgree DocKeys TurnSpec TurnLine.

Definition keeps (s s' : sk_map) : Prop := forall p, is_Some (s !! p) -> is_Some (s' !! p).
Lemma keeps_refl s : keeps s s.
Proof. intros p. auto. Qed.
Lemma keeps_trans a b c : keeps a b -> keeps b c -> keeps a c.
Proof. intros A B p X. auto. Qed.
Lemma keeps_sub a b : a ⊆ b -> keeps a b.
Proof. intros S p [x X]. exists x. eapply lookup_weaken; eauto. Qed.
Lemma keeps_insert a k x : keeps a (<[k := x]> a).
Proof. intros p X. apply lookup_insert_is_Some'. auto. Qed.

(** Only secrets and cached keys change. *)
Record quiet (c c' : cgka) : Prop := {
  q_owner : c_owner c' = c_owner c;
  q_tree : c_tree c' = c_tree c;
  q_graph : c_graph c' = c_graph c;
  q_pending : c_pending c' = c_pending c;
  q_original : c_original c' = c_original c;
  q_init : c_init c' = c_init c;
  q_sks : keeps (c_sks c) (c_sks c')
}.
Lemma quiet_refl c : quiet c c.
Proof. split; auto using keeps_refl. Qed.
Lemma quiet_trans a b c : quiet a b -> quiet b c -> quiet a c.
Proof. intros [] []. split; try congruence. eapply keeps_trans; eauto. Qed.
Lemma quiet_sks c s : keeps (c_sks c) s -> quiet c (set_sks c s).
Proof. intros K. split; auto. Qed.
Lemma quiet_pcs c k h : quiet c (insert_pcs_key c k h).
Proof. split; auto using keeps_refl. Qed.

Lemma root_quiet c c' r : pcs_key_from_tree_root c = (c', r) -> quiet c c'.
Proof.
  unfold pcs_key_from_tree_root. destruct (decrypt_tree_secret (c_tree c) (c_owner c) (c_sks c)) as [s1 r1] eqn:E. apply decrypt_grows, keeps_sub in E.
  destruct r1 as [k|e| |]; try (intros Q; injection Q as <- <-; apply quiet_sks; exact E).
  destruct (negb _ && _); [|intros Q; injection Q as <- <-; apply quiet_sks; exact E].
  destruct (decrypt_tree_secret (c_tree c) public_id s1) as [s2 r2] eqn:E2. apply decrypt_grows, keeps_sub in E2.
  intros Q; injection Q as <- <-. apply quiet_sks. eapply keeps_trans; eauto.
Qed.
Lemma rebuild_pcs_quiet ro c es c' r : rebuild_pcs_key ro c es = (c', r) -> quiet c c'.
Proof.
  unfold rebuild_pcs_key. destruct (rbind _ _); [|intros Q; injection Q as <- <-; apply quiet_refl..].
  destruct (last_first es); intros Q; injection Q as <- <-; try apply quiet_refl. apply quiet_pcs.
Qed.
Lemma derive_quiet ro c h c' r : derive_pcs_key_for_op ro c h = (c', r) -> quiet c c'.
Proof.
  unfold derive_pcs_key_for_op. destruct (negb _); [intros Q; injection Q as <- <-; apply quiet_refl|].
  destruct (topsort_for_heads _ _); try (intros Q; injection Q as <- <-; apply quiet_refl). apply rebuild_pcs_quiet.
Qed.
Lemma hashes_quiet ro c kh h c' r : pcs_key_from_hashes ro c kh h = (c', r) -> quiet c c'.
Proof.
  unfold pcs_key_from_hashes. destruct (c_pcs c !! kh); [intros Q; injection Q as <- <-; apply quiet_refl|].
  destruct (has_pcs_key c) as [[]| | |]; try (intros Q; injection Q as <- <-; apply quiet_refl); [|apply derive_quiet].
  destruct (pcs_key_from_tree_root c) as [c1 r1] eqn:E. apply root_quiet in E. destruct r1 as [k| | |].
  - destruct (_ =? _); intros Q; [injection Q as <- <-; exact E|]. apply derive_quiet in Q. eapply quiet_trans; eauto.
  - intros Q. apply derive_quiet in Q. eapply quiet_trans; eauto.
  - intros Q. injection Q as <- <-. exact E.
  - intros Q. injection Q as <- <-. exact E.
Qed.
Lemma decryption_quiet ro c e c' r : decryption_key_for ro c e = (c', r) -> quiet c c'.
Proof.
  unfold decryption_key_for. destruct (pcs_key_from_hashes ro c (ec_pcs e) (ec_op e)) as [c1 r1] eqn:E. apply hashes_quiet in E.
  destruct r1; intros Q; injection Q as <- <-; try exact E. destruct (c_pcs c1 !! ec_pcs e); [exact E|]. eapply quiet_trans; [exact E|apply quiet_pcs].
Qed.

Section calls.
Context (horder : gset digest -> list digest) (rorder : gset (member_id * nat) -> list (member_id * nat)).
Context (HH : some_order horder).
Context (id : member_id) (pk : share_key).
Notation line := (line id pk).

(** The replica has exactly the operations [l]. *)
Definition has_line (l : list signed_op) (c : cgka) : Prop :=
  exists ops pcs, line l (c_graph c) (c_tree c) ops pcs /\ c_pending c = false /\ c_original c = (id, pk) /\ Some (c_init c) = head l.
Lemma quiet_line l c c' : quiet c c' -> has_line l c -> has_line l c'.
Proof. intros [A B C D E F G] (ops & pcs & L & P & O & I). exists ops, pcs. rewrite B, C, D, E, F. auto. Qed.
Lemma line_settled l c : has_line l c -> maybe_replay horder rorder c = Ok c.
Proof.
  intros (ops & pcs & L & P & _). destruct (line_head _ _ _ _ _ _ _ L) as (l0 & o & _ & Hh). unfold maybe_replay, should_replay, has_single_head.
  rewrite P, Hh, size_singleton. cbn. rewrite andb_false_r. reflexivity.
Qed.

(** The replica made operation [o]. *)
Record grown (l : list signed_op) (h : digest) (c c' : cgka) (o : signed_op) : Prop := {
  gw_line : has_line (l ++ [o]) c';
  gw_hash : so_hash o = h;
  gw_owner : c_owner c' = c_owner c;
  gw_sks : keeps (c_sks c) (c_sks c');
  gw_update m pc ps : so_op o = CUpdate m pc ps -> (m = c_owner c \/ m = public_id) /\ exists p, pc_leaf_pk pc = SKey p /\ is_Some (c_sks c' !! p)
}.
Lemma grown_quiet l h c c' c'' o : grown l h c c' o -> quiet c' c'' -> grown l h c c'' o.
Proof.
  intros [A B C D E] Q. split; [eapply quiet_line; eauto|exact B|rewrite (q_owner _ _ Q); exact C|eapply keeps_trans; [exact D|apply Q]|].
  intros m pc ps X. destruct (E _ _ _ X) as [X1 (p & X2 & X3)]. split; [exact X1|]. exists p. split; [exact X2|]. apply (q_sks _ _ Q), X3.
Qed.
Lemma head_snoc {A} (l : list A) x y : Some x = head l -> Some x = head (l ++ [y]).
Proof. destruct l; [discriminate|auto]. Qed.

Lemma add_line l c i p h c' x : has_line l c -> g_ops (c_graph c) !! h = None -> cgka_add horder rorder c i p h = (c', x) ->
  (c' = c /\ x = Ok None) \/ exists o, x = Ok (Some o) /\ grown l h c c' o.
Proof.
  intros G N Q. pose proof (line_settled _ _ G) as E. destruct G as (ops & pcs & L & P & O & I). unfold cgka_add in Q.
  destruct (contains_id (c_tree c) i) eqn:C; [injection Q as <- <-; auto|]. rewrite E in Q.
  pose proof (line_reach _ _ _ _ _ _ _ L) as R. destruct (reachable_inv _ _ _ _ _ R) as (ht & V & Ab).
  destruct (op_step_total _ _ _ (OAdd i p) V Ab) as [(t' & y & S)|[[_ (? & ? & ? & _)]|[_ (? & ? & ? & ? & _)]]]; try discriminate.
  pose proof S as S'. cbn [op_step] in S'. rewrite C in S'. destruct (push_leaf (c_tree c) i (SKey p)) as [[t idx]| | |] eqn:T; cbn in S'; try discriminate.
  injection S' as <- <-. injection Q as <- <-. right. eexists. split; [reflexivity|]. split; cbn [so_hash so_op].
  - do 2 eexists. split.
    + cbn [c_graph c_tree set_graph set_tree]. eapply (ln_next _ _ l (c_graph c) (c_tree c) ops pcs _ (OAdd i p) None t L); cbn [so_hash so_op op_preds op_add_preds is_add tree_apply].
      * exact N.
      * apply horder_set, HH.
      * apply horder_set, HH.
      * cbn. auto.
      * exact S.
      * rewrite T. reflexivity.
    + cbn. split; [exact P|]. split; [exact O|]. apply head_snoc, I.
  - reflexivity.
  - reflexivity.
  - apply keeps_refl.
  - discriminate.
Qed.
Lemma remove_line l c i h c' x : has_line l c -> g_ops (c_graph c) !! h = None -> cgka_remove horder rorder c i h = (c', x) ->
  (c' = c /\ forall o, x <> Ok (Some o)) \/ exists o, x = Ok (Some o) /\ grown l h c c' o.
Proof.
  intros G N Q. pose proof (line_settled _ _ G) as E. destruct G as (ops & pcs & L & P & O & I). unfold cgka_remove in Q.
  destruct (contains_id (c_tree c) i) eqn:C; cbn [negb] in Q; [|injection Q as <- <-; left; split; [reflexivity|discriminate]]. rewrite E in Q.
  destruct (member_count (c_tree c) =? 1) eqn:M; [injection Q as <- <-; left; split; [reflexivity|discriminate]|].
  pose proof (line_reach _ _ _ _ _ _ _ L) as R. destruct (reachable_inv _ _ _ _ _ R) as (ht & V & Ab).
  destruct (op_step_total _ _ _ (ORemove i) V Ab) as [(t' & y & S)|[[Er _]|[_ (? & ? & ? & ? & _)]]]; try discriminate.
  2:{ cbn [op_step] in Er. rewrite C, M in Er. destruct (remove_id (c_tree c) i) as [[t ?]|e| |] eqn:T; cbn in Er; try discriminate. injection Q as <- <-. left. split; [reflexivity|discriminate]. }
  pose proof S as S'. cbn [op_step] in S'. rewrite C, M in S'. destruct (remove_id (c_tree c) i) as [[t [idx ks]]| | |] eqn:T; cbn in S'; try discriminate.
  injection S' as <- <-. injection Q as <- <-. right. eexists. split; [reflexivity|]. split; cbn [so_hash so_op].
  - do 2 eexists. split.
    + cbn [c_graph c_tree set_graph set_tree]. eapply (ln_next _ _ l (c_graph c) (c_tree c) ops pcs _ (ORemove i) None t L); cbn [so_hash so_op op_preds op_add_preds is_add tree_apply].
      * exact N.
      * apply horder_set, HH.
      * reflexivity.
      * cbn. auto.
      * exact S.
      * rewrite T. reflexivity.
    + cbn. split; [exact P|]. split; [exact O|]. apply head_snoc, I.
  - reflexivity.
  - reflexivity.
  - apply keeps_refl.
  - discriminate.
Qed.

Lemma path_keeps vs : forall s, keeps s (path_sks vs s).
Proof. induction vs as [|v vs IH]; intros s; cbn; [apply keeps_refl|]. eapply keeps_trans; [apply keeps_insert|apply IH]. Qed.

Lemma update_line l c sk h rng c' x : has_line l c -> good_sks (c_sks c) -> g_ops (c_graph c) !! h = None -> cgka_update horder rorder c sk h rng = (c', x) ->
  (quiet c c' /\ forall y, x <> Ok y) \/ exists k o rest, x = Ok (k, o, rest) /\ grown l h c c' o.
Proof.
  intros G GS N Q. pose proof (line_settled _ _ G) as E. destruct G as (ops & pcs & L & P & O & I). unfold cgka_update in Q. rewrite E in Q.
  destruct (update_identity c (pub sk) sk) as [[[m p] s]| | |] eqn:U; [|injection Q as <- <-; left; split; [apply quiet_refl|discriminate]..].
  assert (W : p = s /\ (m = c_owner c \/ m = public_id) /\ exists i, t_ids (c_tree c) !! m = Some i).
  { unfold update_identity in U. destruct (contains_id (c_tree c) (c_owner c)) eqn:C.
    - injection U as <- <- <-. split; [reflexivity|]. split; [auto|]. unfold contains_id in C. apply bool_decide_eq_true in C. destruct C as [i C]. eauto.
    - destruct (node_key_for_id (c_tree c) public_id) as [[q|]| | |] eqn:K; try discriminate.
      destruct (c_sks c !! q) as [z|] eqn:Z; [|discriminate]. cbn in U. injection U as <- <- <-. split; [apply GS in Z; symmetry; exact Z|]. split; [auto|].
      unfold node_key_for_id, leaf_index_for_id in K. destruct (t_ids (c_tree c) !! public_id); [eauto|discriminate]. }
  destruct W as (-> & Hm & i & Ei).
  pose proof (line_reach _ _ _ _ _ _ _ L) as R. destruct (reachable_inv _ _ _ _ _ R) as (ht & V & Ab).
  cbn [c_tree c_sks set_sks] in Q. rewrite (encrypt_path_spec _ _ _ _ s _ _ V Ei) in Q by apply lookup_insert.
  destruct (enc_versions (c_tree c) ht 0 i s rng) as [[vs rng']|] eqn:EV.
  2:{ injection Q as <- <-. left. split; [apply quiet_sks, keeps_insert|discriminate]. }
  injection Q as <- <-. right. do 3 eexists. split; [reflexivity|].
  set (pc := PathChange m i (SKey s) _ _).
  assert (S : op_step (c_tree c) (OUpdate m s rng) = Ok (upd_tree (c_tree c) m s i vs, Some pc)).
  { cbn [op_step]. unfold pub. rewrite (encrypt_path_spec _ _ _ _ s _ _ V Ei) by apply lookup_singleton. rewrite EV. reflexivity. }
  split; cbn [so_hash so_op].
  - do 2 eexists. split.
    + cbn [c_graph c_tree set_graph set_tree insert_pcs_key]. eapply (ln_next _ _ l (c_graph c) (c_tree c) ops pcs _ (OUpdate m s rng) (Some pc) _ L); cbn [so_hash so_op op_preds op_add_preds is_add tree_apply].
      * exact N.
      * apply horder_set, HH.
      * reflexivity.
      * cbn. eauto.
      * exact S.
      * eapply replica_follows_update_lemma; eauto.
    + cbn. split; [exact P|]. split; [exact O|]. apply head_snoc, I.
  - reflexivity.
  - reflexivity.
  - cbn. eapply keeps_trans; [apply (keeps_insert _ s s)|apply path_keeps].
  - intros m0 pc0 ps0 X. injection X as <- <- _. split; [exact Hm|]. exists s. split; [reflexivity|]. cbn. apply path_keeps. rewrite lookup_insert. eauto.
Qed.
Lemma secret_line l c ref content preds sk h rng c' x : has_line l c -> good_sks (c_sks c) -> g_ops (c_graph c) !! h = None ->
  new_app_secret_for horder rorder c ref content preds sk h rng = (c', x) ->
  quiet c c' \/ (has_pcs_key c = Ok false /\ exists o, grown l h c c' o).
Proof.
  intros G GS N Q. unfold new_app_secret_for in Q. cbv zeta in Q.
  destruct (has_pcs_key c) as [[]| | |]; [| |injection Q as <- <-; left; apply quiet_refl..].
  - left. destruct (pcs_key_from_tree_root c) as [c1 r1] eqn:E. apply root_quiet in E. eapply quiet_trans; [exact E|].
    destruct r1 as [k| | |]; try (injection Q as <- <-; apply quiet_refl).
    destruct (c_pcs c1 !! pcs_digest k); [destruct (c_pcs_ops c1 !! pcs_digest k); injection Q as <- <-; apply quiet_refl|].
    destruct (horder (g_heads (c_graph c1))) as [|hd tl]; [destruct (c_pcs_ops c1 !! pcs_digest k); injection Q as <- <-; apply quiet_refl|].
    cbn [c_pcs_ops insert_pcs_key] in Q. rewrite lookup_insert in Q. injection Q as <- <-. apply quiet_pcs.
  - destruct (cgka_update horder rorder c sk h rng) as [c1 r1] eqn:E. destruct (update_line _ _ _ _ _ _ _ G GS N E) as [[E1 X]|(k & o & rest & -> & E1)].
    + left. destruct r1 as [[[? ?] ?]| | |]; [exfalso; eapply X; reflexivity|injection Q as <- <-; exact E1..].
    + right. split; [reflexivity|]. exists o. cbn [c_pcs_ops insert_pcs_key] in Q. rewrite lookup_insert in Q. injection Q as <- <-. eapply grown_quiet; [exact E1|apply quiet_pcs].
Qed.
(** Receiving. *)
Lemma receive_line l o rest G T ops pcs c op c' x : line (l ++ o :: rest) G T ops pcs -> has_line l c -> op ∈ l ++ o :: rest ->
  merge_concurrent_operation horder rorder c op = (c', x) ->
  (op ∈ l /\ c' = c /\ x = Ok false) \/
  (op = o /\ x = Ok true /\ has_line (l ++ [o]) c' /\ c_owner c' = c_owner c /\ c_sks c' = c_sks c) \/
  (op ∈ rest /\ c' = c /\ x = Err EOutOfOrderOperation).
Proof.
  intros LL Gl Hop Q. pose proof (line_settled _ _ Gl) as E. destruct Gl as (ops0 & pcs0 & L & P & O & I). unfold merge_concurrent_operation in Q.
  pose proof (line_ops _ _ _ _ _ _ _ L) as LO. pose proof (line_nodup _ _ _ _ _ _ _ LL) as ND. rewrite map_app in ND. cbn [map] in ND.
  apply NoDup_app in ND as (_ & ND1 & ND2). apply NoDup_cons in ND2 as [ND2 ND3].
  destruct (decide (op ∈ l)) as [K|K].
  { left. assert (C : contains_op (c_graph c) (so_hash op) = true) by (apply contains_some; exists op; apply LO; auto). rewrite C in Q. injection Q as <- <-. auto. }
  assert (C : contains_op (c_graph c) (so_hash op) = false).
  { apply contains_op_false. destruct (g_ops (c_graph c) !! so_hash op) as [o'|] eqn:X; [|reflexivity]. apply LO in X as [X1 X2]. exfalso.
    apply elem_of_app in Hop as [Hop|Hop]; [contradiction|]. eapply ND1; [apply elem_of_list_fmap; exists o'; split; [reflexivity|exact X1]|].
    rewrite X2. change (so_hash o :: map so_hash rest) with (map so_hash (o :: rest)). apply elem_of_list_fmap. eauto. }
  rewrite C in Q. destruct (line_follow _ _ _ _ _ _ _ _ _ _ _ _ _ LL L) as (t' & ops1 & pcs1 & L1 & F & Pr & A & T1).
  apply elem_of_app in Hop as [Hop|Hop]; [contradiction|]. apply elem_of_cons in Hop as [-> |Hop].
  - right. left. destruct (line_head _ _ _ _ _ _ _ L) as (l0 & o0 & El & Hh).
    assert (CP : contains_predecessors (c_graph c) (op_preds (so_op o)) = true).
    { unfold contains_predecessors. apply bool_decide_eq_true. intros y Hy. rewrite Pr, Hh in Hy. apply elem_of_singleton in Hy as ->. exists o0. apply LO. rewrite El, elem_of_app, elem_of_list_singleton. auto. }
    rewrite CP in Q. cbn [negb] in Q. assert (HC : heads_contained_in (c_graph c) (op_preds (so_op o)) = true) by (unfold heads_contained_in; apply bool_decide_eq_true; rewrite Pr; reflexivity).
    rewrite HC in Q. cbn [negb] in Q. rewrite E, apply_operation_eq, C, T1, A in Q. cbn [rbind] in Q. injection Q as <- <-.
    split; [reflexivity|]. split; [reflexivity|]. split; [|auto]. exists ops1, pcs1. cbn. split; [exact L1|]. split; [exact P|]. split; [exact O|]. apply head_snoc, I.
  - right. right. split; [exact Hop|]. apply elem_of_list_split in Hop as (r1 & r2 & ->).
    (* the operation before it is not known *)
    replace (l ++ o :: r1 ++ op :: r2) with ((l ++ o :: r1) ++ op :: r2) in LL by (rewrite <- app_assoc; reflexivity).
    destruct (line_prefix _ _ _ _ _ _ _ _ LL) as (g2 & t2 & ops2 & pcs2 & ? & ? & L2 & _); [destruct l; discriminate|].
    destruct (line_follow _ _ _ _ _ _ _ _ _ _ _ _ _ LL L2) as (t3 & ops3 & pcs3 & _ & _ & Pr2 & _).
    destruct (line_head _ _ _ _ _ _ _ L2) as (l3 & o3 & E3 & H3).
    assert (CP : contains_predecessors (c_graph c) (op_preds (so_op op)) = false).
    { apply not_true_iff_false. unfold contains_predecessors. intros X. apply bool_decide_eq_true in X. rewrite Pr2, H3 in X.
      destruct (X (so_hash o3)) as [y Y]; [apply elem_of_singleton; reflexivity|]. apply LO in Y as [Y1 Y2].
      assert (I3 : o3 ∈ o :: r1).
      { clear -E3. destruct (exists_last (l := o :: r1)) as (l4 & o4 & E4); [discriminate|]. rewrite E4, app_assoc in E3. apply app_inj_tail in E3 as [_ ->]. rewrite E4. set_solver. }
      eapply (ND1 (so_hash y)); [apply elem_of_list_fmap; eauto|]. rewrite Y2. change (so_hash o :: map so_hash (r1 ++ op :: r2)) with (map so_hash ((o :: r1) ++ op :: r2)).
      rewrite map_app, elem_of_app. left. apply elem_of_list_fmap. eauto. }
    rewrite CP in Q. cbn [negb] in Q. injection Q as <- <-. auto.
Qed.
End calls.
