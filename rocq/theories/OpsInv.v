(** Invariants of reachable operation graphs. *)
From Coq Require Import Arith Lia.
From stdpp Require Import base list gmap relations.
From Verif Require Import ResModel KeysModel TreeModel OpsModel OpsSpec.

Record GInv (g : graph) : Prop := {
  gi_hash h o : g_ops g !! h = Some o -> so_hash o = h;
  gi_preds h : g_preds g !! h = (fun o => op_preds (so_op o)) <$> g_ops g !! h;
  gi_closed p h : pred_of g p h -> is_Some (g_ops g !! p);
  gi_rank : exists rank : nat -> nat, forall p h, pred_of g p h -> rank p < rank h;
  gi_heads h : h ∈ g_heads g <-> is_Some (g_ops g !! h) /\ forall k, ~ pred_of g h k
}.

Lemma contains_op_false g h : contains_op g h = false <-> g_ops g !! h = None.
Proof.
  unfold contains_op. rewrite bool_decide_eq_false, eq_None_not_Some. reflexivity.
Qed.

Lemma contains_preds_true g ps : contains_predecessors g ps = true <-> forall p, p ∈ ps -> is_Some (g_ops g !! p).
Proof. unfold contains_predecessors. rewrite bool_decide_eq_true. reflexivity. Qed.

Lemma add_inv g op ps g' :
  GInv g -> g_ops g !! so_hash op = None -> op_preds (so_op op) = ps ->
  (forall p, p ∈ ps -> is_Some (g_ops g !! p)) ->
  g_ops g' = <[so_hash op := op]> (g_ops g) -> g_preds g' = <[so_hash op := ps]> (g_preds g) ->
  g_heads g' = (g_heads g ∖ ps) ∪ {[ so_hash op ]} ->
  GInv g'.
Proof.
  intros V N P C Eo Ep Eh.
  assert (PO : forall p h, pred_of g' p h <-> pred_of g p h \/ (h = so_hash op /\ p ∈ ps)).
  { intros p h. unfold pred_of. rewrite Eo. destruct (decide (h = so_hash op)) as [->|Ne].
    - rewrite lookup_insert. split.
      + intros (o & Q & Hp). injection Q as <-. right. rewrite <- P. auto.
      + intros [(o & Q & _)|[_ Hp]]; [rewrite N in Q; discriminate|]. exists op. rewrite P. auto.
    - rewrite lookup_insert_ne by auto. split; [auto|]. intros [H|[-> _]]; [exact H|contradiction]. }
  assert (NP : forall k, ~ pred_of g (so_hash op) k).
  { intros k H. apply (gi_closed _ V) in H. rewrite N in H. destruct H; discriminate. }
  constructor.
  - intros h o. rewrite Eo. destruct (decide (h = so_hash op)) as [->|Ne].
    + rewrite lookup_insert. intros Q. injection Q as <-. reflexivity.
    + rewrite lookup_insert_ne by auto. apply V.
  - intros h. rewrite Eo, Ep. destruct (decide (h = so_hash op)) as [->|Ne].
    + rewrite !lookup_insert. cbn. rewrite P. reflexivity.
    + rewrite !lookup_insert_ne by auto. apply V.
  - intros p h H. apply PO in H. rewrite Eo. destruct (decide (p = so_hash op)) as [->|Ne].
    + rewrite lookup_insert. eauto.
    + rewrite lookup_insert_ne by auto. destruct H as [H|[_ H]]; [eapply (gi_closed _ V); eauto|auto].
  - destruct (gi_rank _ V) as [rank R].
    set (m := S (set_fold (fun p n => Nat.max (rank p) n) 0 ps)).
    assert (M : forall p, p ∈ ps -> rank p < m).
    { unfold m. apply (set_fold_ind_L (fun n X => forall p, p ∈ X -> rank p < S n)).
      - intros p Hp. set_solver.
      - intros x X n _ IH p Hp. apply elem_of_union in Hp as [Hp|Hp].
        + apply elem_of_singleton in Hp as ->. lia.
        + specialize (IH p Hp). lia. }
    exists (fun h => if decide (h = so_hash op) then m else rank h). intros p h H.
    apply PO in H as [H|[-> H]].
    + assert (p <> so_hash op) by (intros ->; exact (NP _ H)).
      assert (h <> so_hash op).
      { intros ->. destruct H as (o & Q & _). rewrite N in Q. discriminate. }
      rewrite !decide_False by assumption. auto.
    + rewrite (decide_True (P := so_hash op = so_hash op)) by reflexivity.
      assert (p <> so_hash op).
      { intros ->. apply C in H. rewrite N in H. destruct H; discriminate. }
      rewrite decide_False by assumption. auto.
  - intros h. rewrite Eh, Eo, elem_of_union, elem_of_difference, elem_of_singleton, (gi_heads _ V). split.
    + intros [[[K S] NI]| ->].
      * destruct (decide (h = so_hash op)) as [->|Ne]; [rewrite N in K; destruct K; discriminate|].
        rewrite lookup_insert_ne by auto. split; [exact K|]. intros k Q. apply PO in Q as [Q|[_ Q]]; [eapply S; eauto|auto].
      * rewrite lookup_insert. split; [eauto|]. intros k Q. apply PO in Q as [Q|[-> Q]]; [eapply NP; eauto|].
        apply C in Q. rewrite N in Q. destruct Q; discriminate.
    + intros [K S]. destruct (decide (h = so_hash op)) as [->|Ne]; [auto|left].
      rewrite lookup_insert_ne in K by auto. split; [split; [exact K|]|].
      * intros k Q. apply (S k), PO. auto.
      * intros Q. apply (S (so_hash op)), PO. auto.
Qed.

Lemma graph_new_inv : GInv graph_new.
Proof.
  assert (PO : forall p h, ~ pred_of graph_new p h) by (intros p h (o & Q & _); cbn in Q; rewrite lookup_empty in Q; discriminate).
  constructor; cbn.
  - intros h o Q. rewrite lookup_empty in Q. discriminate.
  - intros h. rewrite !lookup_empty. reflexivity.
  - intros p h H. destruct (PO _ _ H).
  - exists id. intros p h H. destruct (PO _ _ H).
  - intros h. split; [set_solver|]. rewrite lookup_empty. intros [[? ?] _]. discriminate.
Qed.

Lemma reachable_ginv g : graph_reachable g -> GInv g.
Proof.
  induction 1 as [op P|g op _ IH N P|g op _ IH N C].
  - eapply (add_inv graph_new op ∅); [apply graph_new_inv|cbn; apply lookup_empty|exact P|set_solver|..]; cbn; try reflexivity.
    set_solver.
  - apply contains_op_false in N. eapply (add_inv g op (g_heads g)); [exact IH|exact N|exact P| |..]; cbn; try reflexivity.
    + intros p Hp. apply (gi_heads _ IH) in Hp. apply Hp.
    + set_solver.
  - apply contains_op_false in N. eapply (add_inv g op (op_preds (so_op op))); [exact IH|exact N|reflexivity| |..]; cbn; try reflexivity.
    apply contains_preds_true, C.
Qed.

(** The graph is determined by the known operations. *)
Lemma ginv_ext g g' : GInv g -> GInv g' -> g_ops g = g_ops g' -> g_preds g = g_preds g' /\ g_heads g = g_heads g'.
Proof.
  intros V V' E. assert (PO : forall p h, pred_of g p h <-> pred_of g' p h) by (intros; unfold pred_of; rewrite E; reflexivity).
  split.
  - apply map_eq. intros h. rewrite (gi_preds _ V), (gi_preds _ V'), E. reflexivity.
  - apply set_eq. intros h. rewrite (gi_heads _ V), (gi_heads _ V'), E.
    split; intros [K S]; (split; [exact K|intros k Q; apply (S k), PO; exact Q]).
Qed.

(** ** Latest additions *)
Lemma honest_adds_reachable g : honest_adds g -> graph_reachable g.
Proof. induction 1; [apply gr_first|apply gr_local|apply gr_remote]; assumption. Qed.

Definition AInv (g : graph) : Prop :=
  (forall h, h ∈ g_add_heads g <-> latest_add g h) /\
  (forall k o p, g_ops g !! k = Some o -> p ∈ op_add_preds (so_op o) -> is_Some (g_ops g !! p)).

Lemma add_ainv g op (ps : gset digest) g' : AInv g -> g_ops g !! so_hash op = None ->
  (forall h, latest_add g h -> h ∈ ps <-> h ∈ op_add_preds (so_op op)) ->
  (forall p, p ∈ op_add_preds (so_op op) -> is_Some (g_ops g !! p)) ->
  g_ops g' = <[so_hash op := op]> (g_ops g) ->
  g_add_heads g' = (if is_add (so_op op) then (g_add_heads g ∖ ps) ∪ {[ so_hash op ]} else g_add_heads g ∖ ps) ->
  AInv g'.
Proof.
  intros [IH ADD] N PS CL Eo Ea. split.
  - intros h.
    assert (L : latest_add g' h <-> (latest_add g h /\ h ∉ op_add_preds (so_op op)) \/ (h = so_hash op /\ is_add (so_op op) = true)).
    { unfold latest_add. rewrite Eo. split.
      - intros (o & Q & A & F). destruct (decide (h = so_hash op)) as [->|Ne].
        + rewrite lookup_insert in Q. injection Q as ->. auto.
        + rewrite lookup_insert_ne in Q by auto. left. split.
          * exists o. split; [exact Q|]. split; [exact A|]. intros k o' Q'. apply (F k o').
            rewrite lookup_insert_ne; [exact Q'|]. intros <-. rewrite N in Q'. discriminate.
          * apply (F (so_hash op)). apply lookup_insert.
      - intros [[(o & Q & A & F) NI]|[-> A]].
        + exists o. assert (h <> so_hash op) by (intros ->; rewrite N in Q; discriminate).
          rewrite lookup_insert_ne by auto. split; [exact Q|]. split; [exact A|]. intros k o'.
          destruct (decide (k = so_hash op)) as [->|Nk].
          * rewrite lookup_insert. intros Q'. injection Q' as <-. exact NI.
          * rewrite lookup_insert_ne by auto. apply F.
        + exists op. rewrite lookup_insert. split; [reflexivity|]. split; [exact A|]. intros k o'.
          destruct (decide (k = so_hash op)) as [->|Nk].
          * rewrite lookup_insert. intros Q'. injection Q' as <-. intros H. apply CL in H. rewrite N in H. destruct H; discriminate.
          * rewrite lookup_insert_ne by auto. intros Q' H. apply (ADD _ _ _ Q') in H. rewrite N in H. destruct H; discriminate. }
    rewrite L, Ea. assert (D : h ∈ g_add_heads g ∖ ps <-> latest_add g h /\ h ∉ op_add_preds (so_op op)).
    { rewrite elem_of_difference, IH. split; intros [A B]; (split; [exact A|]); intros C; apply B, (PS h A), C. }
    destruct (is_add (so_op op)).
    + rewrite elem_of_union, elem_of_singleton, D. tauto.
    + rewrite D. split; [auto|]. intros [H|[_ H]]; [exact H|discriminate].
  - intros k o p. rewrite Eo. intros Q Hp. destruct (decide (p = so_hash op)) as [->|Np]; [rewrite lookup_insert; eauto|].
    rewrite (lookup_insert_ne _ _ p) by auto. destruct (decide (k = so_hash op)) as [->|Nk].
    + rewrite lookup_insert in Q. injection Q as <-. auto.
    + rewrite lookup_insert_ne in Q by auto. eapply ADD; eauto.
Qed.

Lemma add_heads_spec g : honest_adds g -> AInv g.
Proof.
  induction 1 as [op P A|g op H IH N P A|g op H IH N C A].
  - eapply (add_ainv graph_new op ∅).
    + split; cbn.
      * intros h. unfold latest_add. cbn. split; [set_solver|]. intros (o & Q & _). rewrite lookup_empty in Q. discriminate.
      * intros k o p Q. rewrite lookup_empty in Q. discriminate.
    + apply lookup_empty.
    + intros h (o & Q & _). cbn in Q. rewrite lookup_empty in Q. discriminate.
    + rewrite A. intros p Q. inversion Q.
    + reflexivity.
    + cbn. destruct (is_add (so_op op)); set_solver.
  - apply contains_op_false in N. pose proof IH as [IH1 IH2].
    eapply (add_ainv g op (if is_add (so_op op) then g_add_heads g else ∅)); [exact IH|exact N| |..].
    + intros h _. rewrite <- A. rewrite elem_of_list_to_set. reflexivity.
    + intros p Hp. assert (Q : p ∈ (list_to_set (op_add_preds (so_op op)) : gset digest)) by (apply elem_of_list_to_set; exact Hp).
      rewrite A in Q. destruct (is_add (so_op op)); [|set_solver]. apply IH1 in Q as (o & Q & _). eauto.
    + reflexivity.
    + cbn. destruct (is_add (so_op op)); set_solver.
  - apply contains_op_false in N. eapply (add_ainv g op (list_to_set (op_add_preds (so_op op)))); [exact IH|exact N| |exact A|..].
    + intros h _. rewrite elem_of_list_to_set. reflexivity.
    + reflexivity.
    + cbn. destruct (is_add (so_op op)); reflexivity.
Qed.
