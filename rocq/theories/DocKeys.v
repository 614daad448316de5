(** One group key of a document under local changes. *)
From Coq Require Import Arith Lia.
From stdpp Require Import base list gmap relations.
From Verif Require Import ResModel KeysModel TreeModel TreeSpec TreeOps TreeProofs TreeInv TreeRun OpsModel CgkaModel DocModel.

(** All operations are applied, and the tree came about by successful operations. *)
Record good (j : member_id) (key : share_key) (c : cgka) (ops : list tree_op) (pcs : list path_change) : Prop := {
  gd_owner : c_owner c = j;
  gd_applied : c_pending c = false;
  gd_head : has_single_head (c_graph c) = true;
  gd_tree : reachable j key ops (c_tree c) pcs;
  gd_own : contains_id (c_tree c) j = true
}.

Lemma run_app t ops ops' : run t (ops ++ ops') = let! (t1, p1) := run t ops in let! (t2, p2) := run t1 ops' in Ok (t2, p1 ++ p2).
Proof.
  revert t. induction ops as [|o ops IH]; intros t; cbn.
  - destruct (run t ops') as [[t2 p2]| | |]; reflexivity.
  - destruct (op_step t o) as [[t1 x]| | |]; cbn; try reflexivity. rewrite IH. destruct (run t1 ops) as [[t2 p2]| | |]; cbn; try reflexivity.
    destruct (run t2 ops') as [[t3 p3]| | |]; cbn; try reflexivity. destruct x; reflexivity.
Qed.
Lemma reachable_snoc j key ops t pcs op t' o : reachable j key ops t pcs -> op_step t op = Ok (t', o) ->
  reachable j key (ops ++ [op]) t' (pcs ++ option_list o).
Proof.
  intros (t0 & E0 & E) Q. exists t0. split; [exact E0|]. rewrite run_app, E. cbn. rewrite Q. cbn. destruct o; reflexivity.
Qed.
Lemma step_members j key ops t pcs op t' o : reachable j key ops t pcs -> op_step t op = Ok (t', o) -> forall i,
  contains_id t' i = true <->
  match op with
  | OAdd id _ => contains_id t i = true \/ i = id
  | ORemove id => contains_id t i = true /\ i <> id
  | OUpdate id _ _ => contains_id t i = true
  end.
Proof.
  intros R Q i. destruct (reachable_inv _ _ _ _ _ R) as (h & V & A). destruct (op_step_inv _ _ _ _ _ _ V A Q) as (h' & _ & V' & A' & S).
  rewrite (contains_id_spec _ _ _ _ V A), (contains_id_spec _ _ _ _ V' A'). set (g := fold_left _ _ _) in *. clearbody g.
  destruct op as [id pk|id|id sk rng]; cbn [spec_step] in *; rewrite !bool_decide_eq_true.
  - destruct (decide (is_Some (g !! id))) as [X|X].
    + naive_solver.
    + rewrite lookup_insert_is_Some. destruct (decide (i = id)); naive_solver.
  - rewrite lookup_delete_is_Some. naive_solver.
  - rewrite lookup_insert_is_Some. inversion S as [op' _ F _ _|id' pk' t1 i1 h1 _ _ _|id' i1 m1 t1 _ _|id' sk' rng' i1 vs rng1 I1 _ _]; subst.
    + exfalso. eapply F. reflexivity.
    + assert (X : is_Some (g !! id)) by (apply (abs_ids t h g id V A); rewrite I1; eauto). split; [intros [<-|[_ ?]]; auto|]. destruct (decide (id = i)); auto.
Qed.

Section key.
Context (horder : gset digest -> list digest) (rorder : gset (member_id * nat) -> list (member_id * nat)).
Context (j : member_id) (key : share_key).

Lemma good_settled c ops pcs : good j key c ops pcs -> maybe_replay horder rorder c = Ok c.
Proof. intros [_ A B _ _]. unfold maybe_replay, should_replay. rewrite A, B. cbn. rewrite andb_false_r. reflexivity. Qed.
Lemma local_head g op : has_single_head (add_local_op g op) = true.
Proof. unfold has_single_head, add_local_op, add_op_and_update_heads. cbn. rewrite union_empty_l_L, size_singleton. reflexivity. Qed.

Lemma add_good c ops pcs i pk x : good j key c ops pcs -> exists c' r, cgka_add horder rorder c i pk x = (c', Ok r) /\
  good j key c' (ops ++ [OAdd i pk]) pcs /\ forall m, contains_id (c_tree c') m = true <-> contains_id (c_tree c) m = true \/ m = i.
Proof.
  intros G. pose proof (good_settled _ _ _ G) as E. destruct G as [W A B R O].
  destruct (reachable_inv _ _ _ _ _ R) as (h & V & Ab).
  destruct (op_step_total _ _ _ (OAdd i pk) V Ab) as [(t' & o & Q)|[[_ (? & ? & ? & _)]|[_ (? & ? & ? & ? & _)]]]; try discriminate.
  pose proof (step_members _ _ _ _ _ _ _ _ R Q) as M. pose proof (reachable_snoc _ _ _ _ _ _ _ _ R Q) as R'.
  cbn [op_step] in Q. unfold cgka_add. destruct (contains_id (c_tree c) i) eqn:C.
  - injection Q as <- <-. exists c, None. split; [reflexivity|]. cbn in R'. rewrite app_nil_r in R'. split; [split; assumption|exact M].
  - rewrite E. destruct (push_leaf (c_tree c) i (SKey pk)) as [[t idx]| | |]; cbn in Q; try discriminate. injection Q as <- <-.
    cbn in R'. rewrite app_nil_r in R'.
    eexists _, _. split; [reflexivity|]. split; [|exact M]. split; cbn.
    + exact W.
    + exact A.
    + apply local_head.
    + exact R'.
    + apply M. auto.
Qed.
Lemma remove_good c ops pcs i x : good j key c ops pcs -> i <> j -> exists c' r, cgka_remove horder rorder c i x = (c', Ok r) /\
  good j key c' (ops ++ [ORemove i]) pcs /\ forall m, contains_id (c_tree c') m = true <-> contains_id (c_tree c) m = true /\ m <> i.
Proof.
  intros G N. pose proof (good_settled _ _ _ G) as E. destruct G as [W A B R O].
  destruct (reachable_inv _ _ _ _ _ R) as (h & V & Ab).
  destruct (op_step_total _ _ _ (ORemove i) V Ab) as [(t' & o & Q)|[[_ (m & p & X & Y)]|[_ (? & ? & ? & ? & _)]]]; try discriminate.
  2:{ injection X as <-. rewrite (contains_id_spec _ _ _ _ V Ab), Y, bool_decide_eq_true in O. destruct O as [z O]. apply lookup_singleton_Some in O. destruct O; congruence. }
  pose proof (step_members _ _ _ _ _ _ _ _ R Q) as M. pose proof (reachable_snoc _ _ _ _ _ _ _ _ R Q) as R'.
  cbn [op_step] in Q. unfold cgka_remove. destruct (contains_id (c_tree c) i) eqn:C; cbn [negb].
  - rewrite E. destruct (member_count (c_tree c) =? 1); [discriminate|].
    destruct (remove_id (c_tree c) i) as [[t [idx ks]]| | |]; cbn in Q; try discriminate. injection Q as <- <-.
    cbn in R'. rewrite app_nil_r in R'.
    eexists _, _. split; [reflexivity|]. split; [|exact M]. split; cbn.
    + exact W.
    + exact A.
    + apply local_head.
    + exact R'.
    + apply M. auto.
  - injection Q as <- <-. exists c, None. split; [reflexivity|]. cbn in R'. rewrite app_nil_r in R'. split; [split; assumption|exact M].
Qed.
Lemma update_good c ops pcs sk x rng c' r : good j key c ops pcs -> cgka_update horder rorder c sk x rng = (c', r) ->
  exists ops' pcs', good j key c' (ops ++ ops') (pcs ++ pcs') /\ (forall m, contains_id (c_tree c') m = contains_id (c_tree c) m) /\
    match r with Ok _ => ops' = [OUpdate j sk rng] /\ exists pc, pcs' = [pc] | _ => ops' = [] /\ pcs' = [] end.
Proof.
  intros G Q. pose proof (good_settled _ _ _ G) as E. unfold cgka_update in Q. rewrite E in Q. destruct G as [W A B R O].
  unfold update_identity in Q. rewrite W, O in Q.
  destruct (reachable_inv _ _ _ _ _ R) as (h & V & Ab).
  assert (Si : is_Some (t_ids (c_tree c) !! j)) by (unfold contains_id in O; now apply bool_decide_eq_true in O). destruct Si as [i Ei].
  unfold pub in Q. cbn [c_tree set_sks c_sks] in Q. rewrite (encrypt_path_spec _ _ _ _ sk _ _ V Ei) in Q by apply lookup_insert.
  destruct (enc_versions (c_tree c) h 0 i sk rng) as [[vs rng']|] eqn:EV.
  - injection Q as <- <-. 
    assert (S : exists pc, op_step (c_tree c) (OUpdate j sk rng) = Ok (upd_tree (c_tree c) j sk i vs, Some pc)).
    { cbn [op_step]. unfold pub. rewrite (encrypt_path_spec _ _ _ _ sk _ _ V Ei) by apply lookup_singleton. rewrite EV. cbn. eauto. }
    destruct S as [pc S]. pose proof (step_members _ _ _ _ _ _ _ _ R S) as M.
    exists [OUpdate j sk rng], [pc]. cbn [c_tree insert_pcs_key set_graph set_tree]. split; [split; cbn|split].
    + exact W.
    + exact A.
    + apply local_head.
    + apply (reachable_snoc _ _ _ _ _ _ _ _ R S).
    + apply M, O.
    + intros m. specialize (M m). cbn in M |- *. destruct (contains_id (c_tree c) m), (contains_id _ m); naive_solver.
    + eauto.
  - injection Q as <- <-. exists [], []. rewrite !app_nil_r. split; [split; assumption|]. auto.
Qed.
(** Steps that only add secrets. *)
Definition same_key (c c' : cgka) : Prop := c_owner c' = c_owner c /\ c_tree c' = c_tree c /\ c_graph c' = c_graph c /\ c_pending c' = c_pending c.
Lemma same_refl c : same_key c c.
Proof. repeat split. Qed.
Lemma same_trans a b c : same_key a b -> same_key b c -> same_key a c.
Proof. intros (?&?&?&?) (?&?&?&?). repeat split; congruence. Qed.
Lemma same_good c c' ops pcs : same_key c c' -> good j key c ops pcs -> good j key c' ops pcs.
Proof. intros (E1 & E2 & E3 & E4) [A B C D E]. split; rewrite ?E1, ?E2, ?E3, ?E4; assumption. Qed.
Lemma root_same c c' r : pcs_key_from_tree_root c = (c', r) -> same_key c c'.
Proof.
  unfold pcs_key_from_tree_root. repeat case_match; intros Q; injection Q as <- <-; repeat split.
Qed.
Lemma insert_same c k x : same_key c (insert_pcs_key c k x).
Proof. repeat split. Qed.
Lemma rebuild_pcs_same c es c' r : rebuild_pcs_key rorder c es = (c', r) -> same_key c c'.
Proof. unfold rebuild_pcs_key. repeat case_match; intros Q; injection Q as <- <-; repeat split. Qed.
Lemma derive_same c x c' r : derive_pcs_key_for_op rorder c x = (c', r) -> same_key c c'.
Proof.
  unfold derive_pcs_key_for_op. destruct (negb _); [intros Q; injection Q as <- <-; apply same_refl|].
  destruct (topsort_for_heads _ _); try (intros Q; injection Q as <- <-; apply same_refl). apply rebuild_pcs_same.
Qed.
Lemma hashes_same c kh x c' r : pcs_key_from_hashes rorder c kh x = (c', r) -> same_key c c'.
Proof.
  unfold pcs_key_from_hashes. destruct (c_pcs c !! kh); [intros Q; injection Q as <- <-; apply same_refl|].
  destruct (has_pcs_key c) as [[]| | |]; try (intros Q; injection Q as <- <-; apply same_refl); [|apply derive_same].
  destruct (pcs_key_from_tree_root c) as [c1 r1] eqn:E. apply root_same in E. destruct r1 as [k| | |].
  - destruct (_ =? _); intros Q; [injection Q as <- <-; exact E|]. apply derive_same in Q. eapply same_trans; eauto.
  - intros Q. apply derive_same in Q. eapply same_trans; eauto.
  - intros Q. injection Q as <- <-. exact E.
  - intros Q. injection Q as <- <-. exact E.
Qed.
Lemma decrypt_same c e c' r : decryption_key_for rorder c e = (c', r) -> same_key c c'.
Proof.
  unfold decryption_key_for. destruct (pcs_key_from_hashes rorder c (ec_pcs e) (ec_op e)) as [c1 r1] eqn:E. apply hashes_same in E.
  destruct r1; intros Q; injection Q as <- <-; try exact E. destruct (c_pcs c1 !! ec_pcs e); [exact E|]. eapply same_trans; [exact E|apply insert_same].
Qed.
Lemma encrypt_good c ops pcs ref content preds sk x rng c' r : good j key c ops pcs ->
  new_app_secret_for horder rorder c ref content preds sk x rng = (c', r) ->
  exists ops' pcs', good j key c' (ops ++ ops') (pcs ++ pcs') /\ (forall m, contains_id (c_tree c') m = contains_id (c_tree c) m).
Proof.
  intros G Q. unfold new_app_secret_for in Q. cbv zeta in Q.
  assert (S : forall c1, same_key c c1 -> exists ops' pcs', good j key c1 (ops ++ ops') (pcs ++ pcs') /\ (forall m, contains_id (c_tree c1) m = contains_id (c_tree c) m)).
  { intros c1 E. exists [], []. rewrite !app_nil_r. split; [eapply same_good; eauto|]. destruct E as (_ & -> & _). reflexivity. }
  destruct (has_pcs_key c) as [[]| | |].
  - destruct (pcs_key_from_tree_root c) as [c1 r1] eqn:E. apply root_same in E. apply S. eapply same_trans; [exact E|].
    destruct r1 as [k| | |]; try (injection Q as <- <-; apply same_refl).
    destruct (c_pcs c1 !! pcs_digest k); [destruct (c_pcs_ops c1 !! pcs_digest k); injection Q as <- <-; apply same_refl|].
    destruct (horder (g_heads (c_graph c1))) as [|hd tl]; [destruct (c_pcs_ops c1 !! pcs_digest k); injection Q as <- <-; apply same_refl|].
    cbn [c_pcs_ops insert_pcs_key] in Q. rewrite lookup_insert in Q. injection Q as <- <-. apply insert_same.
  - destruct (cgka_update horder rorder c sk x rng) as [c1 r1] eqn:E. destruct (update_good _ _ _ _ _ _ _ _ G E) as (ops' & pcs' & G' & M & _).
    exists ops', pcs'. destruct r1 as [[[k op] rest]| | |]; [|injection Q as <- <-; split; assumption..].
    cbn [c_pcs_ops insert_pcs_key] in Q. rewrite lookup_insert in Q. injection Q as <- <-. split; [|exact M]. eapply same_good; [apply insert_same|exact G'].
  - injection Q as <- <-. apply S, same_refl.
  - injection Q as <- <-. apply S, same_refl.
  - injection Q as <- <-. apply S, same_refl.
Qed.

(** Several changes in a row. *)
Lemma add_keys_good l : forall c ops pcs hs c' r, good j key c ops pcs -> add_keys horder rorder c l hs = (c', r) ->
  exists l', (forall x, x ∈ l' -> x ∈ l) /\ good j key c' (ops ++ map (fun x => OAdd x.1 x.2) l') pcs /\
    (forall m, contains_id (c_tree c') m = true <-> contains_id (c_tree c) m = true \/ m ∈ map fst l') /\
    match r with Ok _ => l' = l | Err _ => False | _ => True end.
Proof.
  induction l as [|[i pk] l IH]; intros c ops pcs hs c' r G Q; cbn [add_keys] in Q.
  - injection Q as <- <-. exists []. rewrite app_nil_r. split; [auto|]. split; [exact G|]. split; [|reflexivity]. intros m. cbn. rewrite elem_of_nil. tauto.
  - destruct hs as [|x hs].
    { injection Q as <- <-. exists []. rewrite app_nil_r. split; [intros ? X; now apply elem_of_nil in X|]. split; [exact G|]. split; [|exact I]. intros m. cbn. rewrite elem_of_nil. tauto. }
    destruct (add_good c ops pcs i pk x G) as (c1 & o & E & G1 & M1). rewrite E in Q.
    destruct (add_keys horder rorder c1 l hs) as [c2 r2] eqn:E2. destruct (IH _ _ _ _ _ _ G1 E2) as (l' & S & G2 & M2 & R).
    assert (c' = c2) by (destruct r2; injection Q as <- <-; reflexivity). subst c2. exists ((i, pk) :: l').
    split; [intros y; rewrite !elem_of_cons; naive_solver|]. split; [cbn; now rewrite <- app_assoc in G2|]. split.
    + intros m. rewrite M2, M1. cbn. rewrite elem_of_cons. tauto.
    + destruct r2; injection Q as <-; subst; auto.
Qed.
Lemma remove_keys_good l : j ∉ l -> forall c ops pcs hs c' r, good j key c ops pcs -> remove_keys horder rorder c l hs = (c', r) ->
  exists l', (forall x, x ∈ l' -> x ∈ l) /\ good j key c' (ops ++ map ORemove l') pcs /\
    (forall m, contains_id (c_tree c') m = true <-> contains_id (c_tree c) m = true /\ m ∉ l') /\
    match r with Ok _ => l' = l | Err _ => False | _ => True end.
Proof.
  induction l as [|i l IH]; intros N c ops pcs hs c' r G Q; cbn [remove_keys] in Q.
  - injection Q as <- <-. exists []. rewrite app_nil_r. split; [auto|]. split; [exact G|]. split; [|reflexivity]. intros m. rewrite elem_of_nil. tauto.
  - destruct hs as [|x hs].
    { injection Q as <- <-. exists []. rewrite app_nil_r. split; [intros ? X; now apply elem_of_nil in X|]. split; [exact G|]. split; [|exact I]. intros m. rewrite elem_of_nil. tauto. }
    apply not_elem_of_cons in N as [N1 N2].
    destruct (remove_good c ops pcs i x G) as (c1 & o & E & G1 & M1); [congruence|]. rewrite E in Q.
    destruct (remove_keys horder rorder c1 l hs) as [c2 r2] eqn:E2. destruct (IH N2 _ _ _ _ _ _ G1 E2) as (l' & S & G2 & M2 & R).
    assert (c' = c2) by (destruct r2; injection Q as <- <-; reflexivity). subst c2. exists (i :: l').
    split; [intros y; rewrite !elem_of_cons; naive_solver|]. split; [cbn; now rewrite <- app_assoc in G2|]. split.
    + intros m. rewrite M2, M1, not_elem_of_cons. tauto.
    + destruct r2; injection Q as <-; subst; auto.
Qed.
Lemma try_remove_keys_good l : j ∉ l -> forall c ops pcs hs, good j key c ops pcs -> try_remove_keys horder rorder c l hs = remove_keys horder rorder c l hs.
Proof.
  induction l as [|i l IH]; intros N c ops pcs hs G; cbn [remove_keys try_remove_keys]; [reflexivity|]. destruct hs as [|x hs]; [reflexivity|].
  apply not_elem_of_cons in N as [N1 N2]. destruct (remove_good c ops pcs i x G) as (c1 & o & E & G1 & M1); [congruence|]. rewrite E.
  rewrite (IH N2 _ _ _ _ G1). reflexivity.
Qed.
(** A new key. *)
Lemma new_good pk x sks c : cgka_from_init j pk (SignedOp x (init_add j pk)) = Ok c -> key = pk -> good j key (with_new_owner c j sks) [] [].
Proof.
  unfold cgka_from_init. intros Q ->. destruct (tree_new j pk) as [t| | |] eqn:E; cbn [rbind] in Q; try discriminate. injection Q as <-.
  assert (R : reachable j pk [] t []) by (exists t; split; [exact E|reflexivity]). split; cbn [c_owner c_pending c_graph c_tree with_new_owner].
  - reflexivity.
  - reflexivity.
  - apply local_head.
  - exact R.
  - destruct (reachable_inv _ _ _ _ _ R) as (h & V & A). rewrite (contains_id_spec _ _ _ _ V A). apply bool_decide_eq_true. cbn [fold_left]. rewrite lookup_singleton. eauto.
Qed.
Lemma new_only pk x sks c m : cgka_from_init j pk (SignedOp x (init_add j pk)) = Ok c -> contains_id (c_tree (with_new_owner c j sks)) m = true <-> m = j.
Proof.
  unfold cgka_from_init. intros Q. destruct (tree_new j pk) as [t| | |] eqn:E; cbn [rbind] in Q; try discriminate. injection Q as <-.
  assert (R : reachable j pk [] t []) by (exists t; split; [exact E|reflexivity]). cbn [c_tree with_new_owner].
  destruct (reachable_inv _ _ _ _ _ R) as (h & V & A). rewrite (contains_id_spec _ _ _ _ V A), bool_decide_eq_true. cbn [fold_left]. split.
  - intros [z Z]. apply lookup_singleton_Some in Z. destruct Z; congruence.
  - intros ->. rewrite lookup_singleton. eauto.
Qed.
End key.
