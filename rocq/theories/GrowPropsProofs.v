(** Proofs for [GrowProps]. *)
From Coq Require Import Arith Lia.
From stdpp Require Import base list gmap relations.
From Verif Require Import ResModel KeysModel TreeModel TreeSpec OpsModel OpsSpec OpsInv OpsProofs OpsPropsProofs
  CgkaModel CgkaSpec CgkaProofs CgkaReplay CgkaConverge CgkaRow NetSpec NetProofs GrowSpec CgkaGrow GrowNet GrowReceive.

Section net.
Context (horder : nat -> gset digest -> list digest).
Context (rorder : nat -> gset (member_id * nat) -> list (member_id * nat)).
Context (HH : forall r, some_order (horder r)) (HR : forall r, some_order (rorder r)).

Lemma grow_replayed_lemma n r c c1 : net_reachable horder rorder n -> only_grows (n_ops n) -> n_reps n !! r = Some c ->
  maybe_replay (horder r) (rorder r) c = Ok c1 -> members_tree (g_ops (c_graph c)) (c_tree c1).
Proof.
  intros R OG E Em. pose proof (net_growing horder rorder HH HR _ _ _ R OG E) as G.
  apply (growing_canonical (horder r) (rorder r) (HH r) (HR r) c _ G). eapply growing_maybe_replay; eauto.
Qed.

Lemma grow_head_lemma n r c : net_reachable horder rorder n -> only_grows (n_ops n) -> n_reps n !! r = Some c ->
  has_single_head (c_graph c) = true -> members_tree (g_ops (c_graph c)) (c_tree c).
Proof.
  intros R OG E Hs. pose proof (net_growing horder rorder HH HR _ _ _ R OG E) as G.
  apply (growing_canonical (horder r) (rorder r) (HH r) (HR r) c _ G).
  destruct G as [Rc SR U _ _]. apply (quiescent_canonical_inv (horder r) (rorder r) (HH r) (HR r) c Rc); assumption.
Qed.

Lemma grow_replay_lemma n r c : net_reachable horder rorder n -> only_grows (n_ops n) -> n_reps n !! r = Some c ->
  exists c1, maybe_replay (horder r) (rorder r) c = Ok c1 /\ members_tree (g_ops (c_graph c)) (c_tree c1).
Proof.
  intros R OG E. destruct (growing_replay_ok _ _ (HH r) (HR r) c) as [c1 Em]; [eapply net_growing; eauto|]. exists c1. split; [exact Em|].
  eapply grow_replayed_lemma; eauto.
Qed.

Lemma grow_add_lemma n r c id pk h : net_reachable horder rorder n -> only_grows (n_ops n) -> n_reps n !! r = Some c -> n_ops n !! h = None ->
  (forall x o pk' i ps qs, n_ops n !! x = Some o -> so_op o <> CAdd id pk' i ps qs) -> contains_id (c_tree c) id = false ->
  exists c' op, cgka_add (horder r) (rorder r) c id pk h = (c', Ok (Some op)) /\ g_ops (c_graph c') = <[h := op]> (g_ops (c_graph c)) /\
    gives_key (so_op op) id pk /\ members_tree (g_ops (c_graph c')) (c_tree c').
Proof.
  intros R OG E N Nw C. pose proof (net_growing horder rorder HH HR _ _ _ R OG E) as G.
  destruct (growing_replay_ok _ _ (HH r) (HR r) c G) as [c1 Em].
  assert (Ex : exists c' i, cgka_add (horder r) (rorder r) c id pk h =
    (c', Ok (Some (SignedOp h (CAdd id pk i (horder r (g_heads (c_graph c))) (horder r (g_add_heads (c_graph c))))))) /\
    c_graph c' = add_local_op (c_graph c) (SignedOp h (CAdd id pk i (horder r (g_heads (c_graph c))) (horder r (g_add_heads (c_graph c)))))).
  { unfold cgka_add. rewrite C, Em. pose proof (maybe_replay_graph _ _ _ _ Em) as (Gr & _).
    destruct (replayed_lined _ _ (HH r) (HR r) c c1 G Em) as (hh & ls & Rw & _).
    destruct (push_rowed (c_tree c1) hh ls (LeafNode id (SKey pk)) Rw) as (t' & h' & Ep & _). cbn [l_id l_pk] in Ep. rewrite Ep, Gr.
    eexists _, _. split; [reflexivity|]. cbn [c_graph set_graph set_tree]. reflexivity. }
  destruct Ex as (c' & i & Q & Gr). eexists c', _. split; [exact Q|]. rewrite Gr. split; [reflexivity|]. split; [split; reflexivity|].
  rewrite <- Gr. pose proof (no_sub _ _ _ (net_reachable_ok horder rorder HH HR _ R) _ _ E) as Sub.
  apply (grow_head_lemma (moved n r c') r c').
  - eapply nr_step; [exact R|]. eapply ns_add; [exact E|exact N|exact Q].
  - cbn [moved n_ops]. rewrite Gr. cbn [add_local_op add_op_and_update_heads g_ops].
    assert (EU : forall x o, (n_ops n ∪ <[h := SignedOp h (CAdd id pk i (horder r (g_heads (c_graph c))) (horder r (g_add_heads (c_graph c))))]> (g_ops (c_graph c))) !! x = Some o ->
      n_ops n !! x = Some o \/ (x = h /\ exists i ps qs, so_op o = CAdd id pk i ps qs)).
    { intros x o Z. apply lookup_union_Some_raw in Z as [Z|[_ Z]]; [auto|]. apply lookup_insert_Some in Z as [[<- <-]|[_ Z]]; [right; cbn; eauto|].
      left. eapply lookup_weaken; eauto. }
    destruct OG as [O1 O2]. split.
    + intros x o id' i' ks ps Z. apply EU in Z as [Z|(_ & j & ps' & qs' & Z)]; [eauto|]. rewrite Z. discriminate.
    + intros x x' o o' id' pk1 pk2 i1 i2 ps1 ps2 qs1 qs2 Z Z' A A'. apply EU in Z as [Z|(-> & j & ps' & qs' & Z)]; apply EU in Z' as [Z'|(-> & j2 & ps2' & qs2' & Z')].
      * eapply O2; [exact Z|exact Z'|exact A|exact A'].
      * exfalso. rewrite Z' in A'. injection A' as <- <- <- <- <-. exact (Nw _ _ _ _ _ _ Z A).
      * exfalso. rewrite Z in A. injection A as <- <- <- <- <-. exact (Nw _ _ _ _ _ _ Z' A').
      * reflexivity.
  - cbn [moved n_reps]. apply lookup_insert.
  - rewrite Gr. apply local_single.
Qed.

Lemma grow_receive_lemma n r c h op : net_reachable horder rorder n -> only_grows (n_ops n) -> n_reps n !! r = Some c -> n_ops n !! h = Some op ->
  (forall p, p ∈ op_preds (so_op op) -> is_Some (g_ops (c_graph c) !! p)) ->
  exists c', merge_concurrent_operation (horder r) (rorder r) c op = (c', Ok (negb (contains_op (c_graph c) h))) /\ g_ops (c_graph c') = <[h := op]> (g_ops (c_graph c)).
Proof.
  intros R OG E N Kn. destruct (net_receives horder rorder HH HR n r c h op R OG E N Kn) as (c' & b & Q). exists c'.
  pose proof (net_reachable_ok horder rorder HH HR _ R) as K. pose proof (no_sub _ _ _ K _ _ E) as Sub.
  assert (so_hash op = h) by (eapply (oo_hash _ (no_ops _ _ _ K)); eauto). subst h.
  pose proof (merge_step _ _ _ _ _ _ Q) as (_ & _ & _ & [(C & -> & B)|[(_ & _ & _ & B)|(C & _ & [[B G]|[B _]])]]).
  - injection B as ->. rewrite C. split; [exact Q|]. apply bool_decide_eq_true in C as [o C]. rewrite insert_id; [reflexivity|].
    rewrite C. pose proof (lookup_weaken _ _ _ _ C Sub). congruence.
  - discriminate.
  - injection B as ->. rewrite C. split; [exact Q|]. rewrite G. reflexivity.
  - exfalso. eapply B. reflexivity.
Qed.
End net.

(** A check for [only_grows]. *)
Definition adds_id (o : signed_op) : option member_id := match so_op o with CAdd id _ _ _ _ => Some id | _ => None end.
Definition grows_b (ops : gmap digest signed_op) : bool :=
  let l := map_to_list ops in
  forallb (fun x => match so_op x.2 with CRemove _ _ _ _ => false | _ => true end) l &&
  forallb (fun x => forallb (fun y => match adds_id x.2, adds_id y.2 with Some a, Some b => negb (a =? b) || (x.1 =? y.1) | _, _ => true end) l) l.
Lemma grows_b_sound ops : grows_b ops = true -> only_grows ops.
Proof.
  unfold grows_b. intros B. apply andb_true_iff in B as [A B]. rewrite forallb_forall in A, B.
  assert (In : forall h o, ops !! h = Some o -> List.In (h, o) (map_to_list ops)) by (intros h o E; apply elem_of_list_In, elem_of_map_to_list, E).
  split.
  - intros h o id i ks ps E Eo. specialize (A _ (In _ _ E)). cbn in A. rewrite Eo in A. discriminate.
  - intros h h' o o' id pk pk' i i' ps ps' qs qs' E E' Eo Eo'. specialize (B _ (In _ _ E)). rewrite forallb_forall in B. specialize (B _ (In _ _ E')).
    cbn in B. unfold adds_id in B. rewrite Eo, Eo', Nat.eqb_refl in B. cbn in B. apply Nat.eqb_eq, B.
Qed.
