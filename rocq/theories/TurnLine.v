(** Histories without concurrency: a list of operations, each naming the one before it. *)
From Coq Require Import Arith Lia.
From stdpp Require Import base list gmap relations.
From Verif Require Import ResModel KeysModel TreeMathModel TreeModel TreeSpec TreeOps TreeProofs TreeInv TreeRun TreePropsProofs TurnTree OpsModel OpsSpec OpsInv OpsProofs OpsEpochs OpsPropsProofs OpsExtend
  CgkaModel CgkaSpec CgkaProofs CgkaReplay CgkaConverge CgkaSound NetSpec NetProofs NetKeys NetAgree DocKeys TurnSpec.

(** A group-key operation and the tree operation it stands for. *)
Definition echoes (t : tree) (o : cgka_op) (op : tree_op) (x : option path_change) : Prop :=
  match o with
  | CAdd id pk _ _ _ => op = OAdd id pk /\ contains_id t id = false
  | CRemove id _ _ _ => op = ORemove id
  | CUpdate id pc _ => exists sk rng, op = OUpdate id sk rng /\ x = Some pc
  end.

Inductive line (id : member_id) (pk : share_key) : list signed_op -> graph -> tree -> list tree_op -> list path_change -> Prop :=
| ln_first h t : tree_new id pk = Ok t ->
    line id pk [SignedOp h (init_add id pk)] (add_local_op graph_new (SignedOp h (init_add id pk))) t [] []
| ln_next l g t ops pcs o op x t' : line id pk l g t ops pcs -> g_ops g !! so_hash o = None ->
    op_preds (so_op o) = g_heads g -> list_to_set (op_add_preds (so_op o)) = (if is_add (so_op o) then g_add_heads g else ∅) ->
    echoes t (so_op o) op x -> op_step t op = Ok (t', x) -> tree_apply t (so_op o) = Ok t' ->
    line id pk (l ++ [o]) (add_local_op g o) t' (ops ++ [op]) (pcs ++ option_list x).

Section line.
Context (id : member_id) (pk : share_key).
Notation line := (line id pk).

Lemma line_reach l g t ops pcs : line l g t ops pcs -> reachable id pk ops t pcs.
Proof.
  induction 1 as [h t E|l g t ops pcs o op x t' L IH F P A Ec Q T].
  - exists t. split; [exact E|reflexivity].
  - eapply reachable_snoc; eauto.
Qed.
Lemma line_graph l g t ops pcs : line l g t ops pcs -> graph_reachable g.
Proof.
  induction 1 as [h t E|l g t ops pcs o op x t' L IH F P A Ec Q T].
  - apply gr_first. reflexivity.
  - apply gr_local; [exact IH|apply contains_op_false, F|exact P].
Qed.
Lemma line_first l g t ops pcs : line l g t ops pcs -> exists h rest, l = SignedOp h (init_add id pk) :: rest.
Proof.
  induction 1 as [h t E|l g t ops pcs o op x t' L (h & rest & ->) F P A Ec Q T]; [eauto|]. exists h, (rest ++ [o]). reflexivity.
Qed.
Lemma line_ops l g t ops pcs : line l g t ops pcs -> forall h o, g_ops g !! h = Some o <-> o ∈ l /\ so_hash o = h.
Proof.
  induction 1 as [h t E|l g t ops pcs o op x t' L IH F P A Ec Q T]; intros y p; cbn.
  - rewrite insert_empty, lookup_singleton_Some, elem_of_list_singleton. split; [intros [<- <-]; auto|intros [-> <-]; auto].
  - rewrite elem_of_app, elem_of_list_singleton, lookup_insert_Some, IH. split.
    + intros [[<- <-]|[N [I Ep]]]; auto.
    + intros [[I| ->] <-]; [|auto]. right. split; [|auto]. intros E. assert (X : g_ops g !! so_hash p = Some p) by (apply IH; auto). rewrite <- E, F in X. discriminate.
Qed.
Lemma line_nodup l g t ops pcs : line l g t ops pcs -> NoDup (map so_hash l).
Proof.
  induction 1 as [h t E|l g t ops pcs o op x t' L IH F P A Ec Q T]; cbn.
  - apply NoDup_singleton.
  - rewrite map_app. apply NoDup_app. split; [exact IH|]. split; [|apply NoDup_singleton]. intros y Hy Hz. apply elem_of_list_singleton in Hz as ->.
    apply elem_of_list_fmap in Hy as (p & Ep & Hp). assert (X : g_ops g !! so_hash p = Some p) by (eapply line_ops; eauto). rewrite <- Ep, F in X. discriminate.
Qed.
Lemma line_head l g t ops pcs : line l g t ops pcs -> exists l0 o, l = l0 ++ [o] /\ g_heads g = {[ so_hash o ]}.
Proof.
  intros L. destruct L as [h t E|l g t ops pcs o op x t' L F P A Ec Q T].
  - eexists [], _. split; [reflexivity|]. cbn. apply union_empty_l_L.
  - exists l, o. split; [reflexivity|]. cbn. apply union_empty_l_L.
Qed.
Lemma line_add_heads l g t ops pcs : line l g t ops pcs -> size (g_add_heads g) < 2.
Proof.
  induction 1 as [h t E|l g t ops pcs o op x t' L IH F P A Ec Q T]; cbn.
  - rewrite union_empty_l_L, size_singleton. lia.
  - destruct (is_add (so_op o)); [|exact IH]. rewrite union_empty_l_L, size_singleton. lia.
Qed.
Lemma line_ends l g t ops pcs o : line (l ++ [o]) g t ops pcs -> l <> [] -> exists g0 t0 ops0 pcs0 op x, line l g0 t0 ops0 pcs0 /\ g_ops g0 !! so_hash o = None /\
    op_preds (so_op o) = g_heads g0 /\ list_to_set (op_add_preds (so_op o)) = (if is_add (so_op o) then g_add_heads g0 else ∅) /\
    echoes t0 (so_op o) op x /\ op_step t0 op = Ok (t, x) /\ tree_apply t0 (so_op o) = Ok t /\ g = add_local_op g0 o /\ ops = ops0 ++ [op] /\ pcs = pcs0 ++ option_list x.
Proof.
  intros L N. inversion L as [h t0 E E1|l1 g1 t1 ops1 pcs1 o1 op x t1' L1 F P A Ec Q T E1]; subst.
  - destruct l as [|? [|? ?]]; [contradiction|discriminate..].
  - apply app_inj_tail in E1 as [-> ->]. exists g1, t1, ops1, pcs1, op, x. auto 12.
Qed.
Lemma line_single o g t ops pcs : line [o] g t ops pcs ->
  exists h, o = SignedOp h (init_add id pk) /\ tree_new id pk = Ok t /\ g = add_local_op graph_new o.
Proof.
  intros L. inversion L as [h t0 E E1|l1 g1 t1 ops1 pcs1 o1 op x t1' L1 F P A Ec Q T E1]; subst; [eauto|].
  destruct l1 as [|? [|? ?]]; [|discriminate..]. apply line_first in L1 as (? & ? & ?). discriminate.
Qed.
Lemma line_det l : forall g t ops pcs g' t' ops' pcs', line l g t ops pcs -> line l g' t' ops' pcs' -> g = g' /\ t = t'.
Proof.
  induction l as [|o l IH] using rev_ind; intros g t ops pcs g' t' ops' pcs' L L'.
  - apply line_first in L as (? & ? & ?). discriminate.
  - destruct l as [|y l].
    + apply line_single in L as (h & -> & E & ->). apply line_single in L' as (h' & E1 & E' & ->). split; congruence.
    + apply line_ends in L as (g0 & t0 & ? & ? & ? & ? & L & _ & _ & _ & _ & _ & T & -> & _); [|discriminate].
      apply line_ends in L' as (g0' & t0' & ? & ? & ? & ? & L' & _ & _ & _ & _ & _ & T' & -> & _); [|discriminate].
      destruct (IH _ _ _ _ _ _ _ _ L L') as [-> ->]. rewrite T in T'. injection T' as ->. auto.
Qed.
Lemma line_prefix l' l g t ops pcs : line (l ++ l') g t ops pcs -> l <> [] -> exists g0 t0 ops0 pcs0 ops1 pcs1, line l g0 t0 ops0 pcs0 /\ ops = ops0 ++ ops1 /\ pcs = pcs0 ++ pcs1.
Proof.
  revert g t ops pcs. induction l' as [|o l' IH] using rev_ind; intros g t ops pcs L N.
  - rewrite app_nil_r in L. exists g, t, ops, pcs, [], []. rewrite !app_nil_r. auto.
  - rewrite app_assoc in L. apply line_ends in L as (g0 & t0 & ops0 & pcs0 & op & x & L & _ & _ & _ & _ & _ & _ & _ & -> & ->).
    + destruct (IH _ _ _ _ L N) as (g1 & t1 & ops1 & pcs1 & ops2 & pcs2 & L1 & -> & ->). eexists g1, t1, ops1, pcs1, _, _. rewrite <- !app_assoc. eauto.
    + intros E. apply app_eq_nil in E as [-> _]. contradiction.
Qed.
Lemma local_is_remote g o : op_preds (so_op o) = g_heads g -> list_to_set (op_add_preds (so_op o)) = (if is_add (so_op o) then g_add_heads g else ∅) ->
  add_op g o (op_preds (so_op o)) = add_local_op g o.
Proof.
  intros P A. unfold add_op, add_local_op, add_op_and_update_heads. rewrite P, A. f_equal.
  - set_solver.
  - destruct (is_add (so_op o)); set_solver.
Qed.
(** What follows a prefix. *)
Lemma line_follow l o rest G T ops pcs g t ops0 pcs0 : line (l ++ o :: rest) G T ops pcs -> line l g t ops0 pcs0 ->
  exists t' ops1 pcs1, line (l ++ [o]) (add_local_op g o) t' ops1 pcs1 /\ g_ops g !! so_hash o = None /\ op_preds (so_op o) = g_heads g /\
    add_op g o (op_preds (so_op o)) = add_local_op g o /\ tree_apply t (so_op o) = Ok t'.
Proof.
  intros L L0. assert (Nl : l <> []) by (intros ->; apply line_first in L0 as (? & ? & ?); discriminate).
  replace (l ++ o :: rest) with ((l ++ [o]) ++ rest) in L by (rewrite <- app_assoc; reflexivity).
  apply line_prefix in L as (g1 & t1 & ops1 & pcs1 & ? & ? & L & _); [|destruct l; discriminate].
  pose proof L as L1. apply line_ends in L1 as (g2 & t2 & ? & ? & ? & ? & L2 & F & P & A & _ & _ & T2 & -> & _); [|exact Nl].
  destruct (line_det _ _ _ _ _ _ _ _ _ L0 L2) as [<- <-]. exists t1, ops1, pcs1. split; [exact L|]. split; [exact F|]. split; [exact P|]. split; [|exact T2].
  apply local_is_remote; assumption.
Qed.

(** The only operation without predecessors is the first. *)
Lemma line_root l g t ops pcs : line l g t ops pcs -> single_root g.
Proof.
  intros L. assert (H : forall h o, g_ops g !! h = Some o -> op_preds (so_op o) = ∅ -> exists rest, l = o :: rest).
  { induction L as [h t E|l g t ops pcs o op x t' L IH F P A Ec Q T]; intros y p; cbn.
    - rewrite insert_empty, lookup_singleton_Some. intros [<- <-] _. eauto.
    - rewrite lookup_insert_Some. intros [[<- <-]|[_ Q']] Z.
      + exfalso. rewrite P in Z. eapply heads_nonempty; [eapply line_graph; exact L|exact Z].
      + destruct (IH _ _ Q' Z) as [rest ->]. exists (rest ++ [o]). reflexivity. }
  intros h h' o o' E E' Z Z'. destruct (H _ _ E Z) as [r1 E1]. destruct (H _ _ E' Z') as [r2 E2]. rewrite E1 in E2. injection E2 as <- _.
  apply (line_ops _ _ _ _ _ L) in E as [_ <-]. apply (line_ops _ _ _ _ _ L) in E' as [_ <-]. reflexivity.
Qed.

(** Replay takes the operations one by one. *)
Definition alone (o : signed_op) : list signed_op := [o].
Lemma first_topsort o : topsort_for_heads (add_local_op graph_new o) [so_hash o] = Ok [[o]].
Proof.
  unfold topsort_for_heads. cbn [walk_loop w_frontier walk_start add_local_op add_op_and_update_heads g_preds].
  rewrite lookup_insert. cbn [ok_or rbind]. cbn [g_heads graph_new]. rewrite elements_empty. cbn [foldl w_ts w_succ w_seen].
  assert (E : forall n w, w_frontier w = [] -> walk_loop n (add_local_op graph_new o) w = Ok w) by (intros [|n] w W; cbn [walk_loop]; rewrite W; reflexivity).
  unfold add_local_op, add_op_and_update_heads in E. rewrite E by reflexivity. cbn [rbind w_ts].
  unfold ts_is_empty. cbn [ts_deps ts_new]. rewrite bool_decide_true by reflexivity. cbn [get_ops g_ops]. rewrite lookup_insert. reflexivity.
Qed.
Lemma line_topsort l g t ops pcs o : line (l ++ [o]) g t ops pcs -> topsort_for_heads g [so_hash o] = Ok (map alone (l ++ [o])).
Proof.
  revert g t ops pcs o. induction l as [|p l IH] using rev_ind; intros g t ops pcs o L.
  - apply line_single in L as (h & _ & _ & ->). apply first_topsort.
  - pose proof (line_graph _ _ _ _ _ L) as R. apply line_ends in L as (g0 & t0 & ? & ? & ? & ? & L & F & P & _ & _ & _ & _ & -> & _); [|destruct l; discriminate].
    rewrite map_app. cbn [map alone]. eapply (topsort_extend g0).
    + eapply line_graph, L.
    + apply reachable_ginv, R.
    + eapply line_root, L.
    + constructor; [reflexivity|exact F|exact P].
    + destruct (line_head _ _ _ _ _ L) as (l0 & o0 & E & Hh). apply app_inj_tail in E as [<- <-]. rewrite Hh, elements_singleton. reflexivity.
    + eapply IH, L.
Qed.
(** Rebuilding from the first operation gives the tree of the line. *)
Lemma apply_line ro l rest g t ops pcs : line (l ++ rest) g t ops pcs -> forall g0 t0 ops0 pcs0 c, line l g0 t0 ops0 pcs0 ->
  c_graph c = g0 -> c_tree c = t0 -> apply_epochs ro c (map alone rest) = Ok (set_graph (set_tree c t) g).
Proof.
  revert l. induction rest as [|o rest IH]; intros l L g0 t0 ops0 pcs0 c L0 Eg Et; cbn [map alone apply_epochs].
  - rewrite app_nil_r in L. destruct (line_det _ _ _ _ _ _ _ _ _ L0 L) as [-> ->]. subst. destruct c. reflexivity.
  - destruct (line_follow _ _ _ _ _ _ _ _ _ _ _ L L0) as (t1 & ops1 & pcs1 & L1 & F & P & A & T).
    unfold apply_epoch. cbn [alone]. rewrite apply_operation_eq, Eg, Et. rewrite (proj2 (contains_op_false _ _)) by exact F. rewrite T, A. cbn [rbind].
    replace (l ++ o :: rest) with ((l ++ [o]) ++ rest) in L by (rewrite <- app_assoc; reflexivity).
    rewrite (IH _ L _ _ _ _ (set_graph (set_tree c t1) (add_local_op g0 o)) L1) by reflexivity. reflexivity.
Qed.
Lemma rebuild_line ro c l g t ops pcs : line l g t ops pcs -> c_original c = (id, pk) -> Some (c_init c) = head l ->
  exists c1, rebuild_from ro c (map alone l) = Ok c1 /\ c_tree c1 = t /\ c_graph c1 = g /\ c_owner c1 = c_owner c /\ c_sks c1 = c_sks c.
Proof.
  intros L Eo Ei. destruct (line_first _ _ _ _ _ L) as (h & rest & ->). cbn in Ei. injection Ei as Ei.
  assert (Nl : [SignedOp h (init_add id pk)] <> []) by discriminate.
  destruct (line_prefix rest [SignedOp h (init_add id pk)] g t ops pcs L Nl) as (g0 & t0 & ops0 & pcs0 & ? & ? & L0 & _).
  pose proof (line_single _ _ _ _ _ L0) as (h' & _ & Et & ->).
  unfold rebuild_from. rewrite Eo, Ei. cbn [fst snd]. unfold cgka_from_init. rewrite Et. cbn [rbind].
  cbn [map apply_epochs]. unfold apply_epoch at 1. cbn [alone]. rewrite apply_operation_eq. cbn [c_graph with_new_owner so_hash].
  assert (K : contains_op (add_local_op graph_new (SignedOp h (init_add id pk))) h = true).
  { unfold contains_op. apply bool_decide_eq_true. cbn. rewrite lookup_insert. eauto. }
  rewrite K. cbn [rbind].
  erewrite (apply_line ro [SignedOp h (init_add id pk)] rest g t ops pcs L _ _ _ _ _ L0) by reflexivity.
  eexists. split; [reflexivity|]. repeat split.
Qed.
End line.
