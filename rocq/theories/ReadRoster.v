(** Networks whose changes of members take turns: the trees are those of the members, and
    every call works (C52, C51). *)
From Coq Require Import Arith Lia.
From stdpp Require Import base list gmap relations.
From Verif Require Import ResModel KeysModel TreeMathModel TreeMathSpec TreeMathProofs TreeModel TreeSpec TreeOps TreeView TreeProofs TreeInv TreeRun
  OpsModel OpsSpec OpsInv OpsProofs OpsPropsProofs OpsAlone CgkaModel CgkaSpec CgkaProofs CgkaReplay CgkaConverge NetSpec NetProofs NetKeys NetAgree NetInv
  GrowSpec GrowNet GrowReceive ReadSpec ReadTree ReadWorld ReadNet ReadMade ReadPropsProofs.

(** ** Who is a member after an operation *)
Section next.
Context (ops : gmap digest signed_op) (h : digest) (op : signed_op).
Context (N : ops !! h = None) (Cl : forall p x, named ops p x -> is_Some (ops !! p)).
Notation ops' := (<[h := op]> ops).
Notation all X := (fun x => is_Some (X !! x)) (only parsing).

Lemma next_sub : ops ⊆ ops'.
Proof. apply insert_subseteq, N. Qed.
Lemma next_before x y : is_Some (ops !! y) -> came_before ops' x y <-> came_before ops x y.
Proof. apply before_same; [apply next_sub|exact Cl]. Qed.
Lemma next_look x o : ops' !! x = Some o -> x <> h -> ops !! x = Some o.
Proof. intros E Hx. rewrite lookup_insert_ne in E by auto. exact E. Qed.
Lemma next_known x y : came_before ops x y -> is_Some (ops !! x).
Proof. apply (past_known ops Cl). Qed.

Lemma next_update id : is_update (so_op op) = true -> member ops' id <-> member ops id.
Proof.
  intros Up. split; intros (i & a & o & pk & ps & qs & [oa Ha] & Ea & Eo & F); exists i, a, o, pk, ps, qs.
  - assert (a <> h) by (intros ->; rewrite lookup_insert in Ea; injection Ea as <-; rewrite Eo in Up; discriminate).
    pose proof (next_look _ _ Ea ltac:(assumption)) as Ea'. split; [eauto|]. split; [exact Ea'|]. split; [exact Eo|]. intros r o' j ks ps' Hr Er Q.
    pose proof (lookup_weaken _ _ _ _ Er next_sub) as Er'. apply (next_before r a); [eauto|]. eapply F; eauto.
  - pose proof (lookup_weaken _ _ _ _ Ea next_sub) as Ea'. split; [eauto|]. split; [exact Ea'|]. split; [exact Eo|]. intros r o' j ks ps' Hr Er Q.
    assert (r <> h) by (intros ->; rewrite lookup_insert in Er; injection Er as <-; rewrite Q in Up; discriminate).
    pose proof (next_look _ _ Er ltac:(assumption)) as Er'. apply (next_before r a); [eauto|]. eapply F; eauto.
Qed.

Lemma next_remove id i ks ps id' : so_op op = CRemove id i ks ps -> member ops' id' <-> id' <> id /\ member ops id'.
Proof.
  intros Eop. split.
  - intros (i' & a & o & pk' & ps' & qs' & _ & Ea & Eo & F).
    assert (Na : a <> h) by (intros ->; rewrite lookup_insert in Ea; injection Ea as <-; congruence). pose proof (next_look _ _ Ea Na) as Ea'. split.
    + intros ->. assert (B : came_before ops' h a) by (eapply F; [rewrite lookup_insert; eauto|apply lookup_insert|exact Eop]).
      apply next_before in B; [|eauto]. apply next_known in B as [? B]. congruence.
    + exists i', a, o, pk', ps', qs'. split; [eauto|]. split; [exact Ea'|]. split; [exact Eo|]. intros r o' j ks2 ps2 Hr Er Q.
      pose proof (lookup_weaken _ _ _ _ Er next_sub) as Er'. apply (next_before r a); [eauto|]. eapply F; eauto.
  - intros (Ni & i' & a & o & pk' & ps' & qs' & _ & Ea & Eo & F).
    pose proof (lookup_weaken _ _ _ _ Ea next_sub) as Ea'. exists i', a, o, pk', ps', qs'. split; [eauto|]. split; [exact Ea'|]. split; [exact Eo|]. intros r o' j ks2 ps2 Hr Er Q.
    assert (r <> h) by (intros ->; rewrite lookup_insert in Er; injection Er as <-; rewrite Eop in Q; injection Q; congruence).
    pose proof (next_look _ _ Er ltac:(assumption)) as Er'. apply (next_before r a); [eauto|]. eapply F; eauto.
Qed.
(** All operations known so far came before. *)
Context (Bf : forall x, is_Some (ops !! x) -> came_before ops' x h).

Lemma next_add id pk i ps qs id' : so_op op = CAdd id pk i ps qs -> member ops' id' <-> id' = id \/ member ops id'.
Proof.
  intros Eop. split.
  - intros (i' & a & o & pk' & ps' & qs' & _ & Ea & Eo & F). destruct (decide (a = h)) as [-> |Na].
    + left. rewrite lookup_insert in Ea. injection Ea as <-. rewrite Eop in Eo. injection Eo. auto.
    + right. pose proof (next_look _ _ Ea Na) as Ea'. exists i', a, o, pk', ps', qs'. split; [eauto|]. split; [exact Ea'|]. split; [exact Eo|]. intros r o' j ks ps2 Hr Er Q.
      pose proof (lookup_weaken _ _ _ _ Er next_sub) as Er'. apply (next_before r a); [eauto|]. eapply F; eauto.
  - intros [-> |(i' & a & o & pk' & ps' & qs' & _ & Ea & Eo & F)].
    + exists i, h, op, pk, ps, qs. rewrite lookup_insert. split; [eauto|]. split; [reflexivity|]. split; [exact Eop|]. intros r o' j ks ps2 Hr Er Q.
      apply Bf. destruct (decide (r = h)) as [-> |Nr]; [|exists o'; apply next_look; assumption]. exfalso. rewrite lookup_insert in Er. injection Er as <-. congruence.
    + pose proof (lookup_weaken _ _ _ _ Ea next_sub) as Ea'. exists i', a, o, pk', ps', qs'. split; [eauto|]. split; [exact Ea'|]. split; [exact Eo|]. intros r o' j ks ps2 Hr Er Q.
      assert (r <> h) by (intros ->; rewrite lookup_insert in Er; injection Er as <-; congruence).
      pose proof (next_look _ _ Er ltac:(assumption)) as Er'. apply (next_before r a); [eauto|]. eapply F; eauto.
Qed.

End next.

Section net.
Context (horder : nat -> gset digest -> list digest).
Context (rorder : nat -> gset (member_id * nat) -> list (member_id * nat)).
Context (HH : forall r, some_order (horder r)) (HR : forall r, some_order (rorder r)).
Context (n : network) (R : net_reachable horder rorder n) (Od : orderly (n_ops n)).
Notation ops := (n_ops n).

(** ** Every tree is that of the members *)
Lemma every_roster r c : n_reps n !! r = Some c -> roster_tree (g_ops (c_graph c)) (c_tree c) /\ c_pending c = false.
Proof.
  intros E. destruct (proj2 (net_fine horder rorder HH HR _ R Od) r c E) as [_ P]. destruct (now_describes horder rorder HH HR n R Od r c E) as (h & Ds & Cl). split; [|exact P].
  pose proof (no_sub _ _ _ (net_reachable_ok horder rorder HH HR _ R) _ _ E) as Sub. split.
  - intros id. rewrite (member_known horder rorder HH HR n R r c _ _ id E Ds). split; intros [i Q]; exists i; apply (ds_seat _ _ _ _ Ds); exact Q.
  - intros i j l l' A B Q. destruct l as [id nk], l' as [id' nk']. cbn in Q. subst id'.
    assert (t_ids (c_tree c) !! id = Some i) by (apply (ds_seat _ _ _ _ Ds); eauto). assert (t_ids (c_tree c) !! id = Some j) by (apply (ds_seat _ _ _ _ Ds); eauto). congruence.
  - intros id i. apply (ds_seat _ _ _ _ Ds).
  - intros i l A. destruct l as [id nk]. apply (ds_leaf _ _ _ _ Ds) in A as (x & pk & [Hx _ _] & Gx & ->). cbn. apply (known_ops n r c E) in Hx as [o Eo].
    exists pk, x, o. split; [reflexivity|]. split; [exact Eo|]. eapply gives_gives_key; [|exact Gx]. eapply lookup_weaken; eauto.
Qed.

(** ** Equal knowledge, equal trees *)
Lemma same_describes (D : gset digest) t t' h h' : describes ops D t h -> describes ops D t' h' ->
  t_ids t = t_ids t' /\ t_next t = t_next t' /\ t_size t = t_size t' /\ (forall i, leafv t i = leafv t' i) /\
  forall k j, match innerv t k j, innerv t' k j with Some s, Some s' => Permutation s s' | None, None => True | _, _ => False end.
Proof.
  intros A B. assert (Sm : same_members ops D D) by (intros m o _ _; reflexivity). pose proof (same_ids _ _ _ _ _ _ _ A B Sm) as Ids.
  pose proof (same_height _ _ _ _ _ _ _ A B Sm) as ->. split; [auto|]. split; [symmetry; eapply next_of_ids; eauto|].
  split; [rewrite (sh_size _ _ (ds_shape _ _ _ _ A)), (sh_size _ _ (ds_shape _ _ _ _ B)); reflexivity|]. split.
  - assert (L : forall t1 t2, describes ops D t1 h -> describes ops D t2 h -> forall i l, leafv t1 i = Some l -> leafv t2 i = Some l).
    { intros t1 t2 A1 A2 i [id nk] E. apply (ds_leaf _ _ _ _ A2). apply (ds_leaf _ _ _ _ A1). exact E. }
    intros i. destruct (leafv t i) as [l|] eqn:E; [symmetry; eapply L; eauto|]. destruct (leafv t' i) as [l|] eqn:E'; [|reflexivity].
    pose proof (L _ _ B A _ _ E'). congruence.
  - assert (L : forall t1 t2, describes ops D t1 h -> describes ops D t2 h -> forall k j s, innerv t1 k j = Some s -> innerv t2 k j = None -> False).
    { intros t1 t2 A1 A2 k j s E1 E2. apply (ds_inner _ _ _ _ A1) in E1 as (Ns & _ & F). destruct s as [|v s]; [contradiction|]. destruct (proj1 (F v)) as (u & Lu & Vu); [left|].
      exact (ds_none _ _ _ _ A2 _ _ E2 _ _ Lu Vu). }
    intros k j. destruct (innerv t k j) as [s|] eqn:E, (innerv t' k j) as [s'|] eqn:E'; [|eapply L; [exact A|exact B|exact E|exact E']|eapply L; [exact B|exact A|exact E'|exact E]|exact I].
    apply (ds_inner _ _ _ _ A) in E as (_ & Nd & F). apply (ds_inner _ _ _ _ B) in E' as (_ & Nd' & F'). apply NoDup_Permutation; [assumption..|]. intros v. rewrite F, F'. reflexivity.
Qed.
Lemma same_knowledge r c r' c' : n_reps n !! r = Some c -> n_reps n !! r' = Some c' -> g_ops (c_graph c) = g_ops (c_graph c') ->
  t_ids (c_tree c) = t_ids (c_tree c') /\ t_next (c_tree c) = t_next (c_tree c') /\ t_size (c_tree c) = t_size (c_tree c') /\ (forall i, leafv (c_tree c) i = leafv (c_tree c') i) /\
  forall k j, match innerv (c_tree c) k j, innerv (c_tree c') k j with Some s, Some s' => Permutation s s' | None, None => True | _, _ => False end.
Proof.
  intros E E' Q. destruct (now_describes horder rorder HH HR n R Od r c E) as (h & Ds & _). destruct (now_describes horder rorder HH HR n R Od r' c' E') as (h' & Ds' & _).
  unfold known in *. rewrite <- Q in Ds'. eapply same_describes; eauto.
Qed.

(** ** Receiving *)
Lemma graph_past r c h op : n_reps n !! r = Some c -> g_ops (c_graph c) !! h = None -> g_heads (c_graph c) ⊆ op_preds (so_op op) ->
  forall x, is_Some (g_ops (c_graph c) !! x) -> came_before (<[h := op]> (g_ops (c_graph c))) x h.
Proof.
  intros E N Hp x Hx. pose proof (net_reachable_ok horder rorder HH HR _ R) as K.
  assert (Rg : graph_reachable (c_graph c)) by (eapply cgka_graph_reachable; [apply HH|exact (no_reach _ _ _ K _ _ E)]).
  destruct (some_head_lemma _ Rg x Hx) as (k & Hk & Rk).
  assert (Nk : named (<[h := op]> (g_ops (c_graph c))) k h) by (exists op; rewrite lookup_insert; split; [reflexivity|apply Hp, Hk]).
  apply rtc_tc in Rk as [-> |Rk]; [apply tc_once, Nk|]. eapply tc_r; [|exact Nk].
  apply (before_same (g_ops (c_graph c)) (<[h := op]> (g_ops (c_graph c)))); [apply insert_subseteq, N|exact (graph_closed horder rorder HH HR n R r c E)| |exact Rk].
  apply (gi_heads _ (reachable_ginv _ Rg)) in Hk. apply Hk.
Qed.

Lemma every_receive r c h op : n_reps n !! r = Some c -> ops !! h = Some op -> (forall p, p ∈ op_preds (so_op op) -> is_Some (g_ops (c_graph c) !! p)) ->
  exists c' b, merge_concurrent_operation (horder r) (rorder r) c op = (c', Ok b) /\ g_ops (c_graph c') = <[h := op]> (g_ops (c_graph c)) /\
    (b = true <-> g_ops (c_graph c) !! h = None).
Proof.
  intros E N Kn. pose proof (net_reachable_ok horder rorder HH HR _ R) as K. destruct (net_fine horder rorder HH HR _ R Od) as [CA F].
  assert (so_hash op = h) by (eapply (oo_hash _ (no_ops _ _ _ K)); eauto). subst h.
  destruct (receive_fine horder rorder HH HR n r c op K Od CA E (F _ _ E) N Kn) as (c' & b & Q & _ & I'). exists c', b. split; [exact Q|].
  destruct (merge_step _ _ _ _ _ _ Q) as (_ & _ & _ & [(Ec & -> & B)|[(_ & Ep & _)|(Ec & _ & [[B Gr]|[B _]])]]).
  - injection B as ->. apply bool_decide_eq_true in Ec as [o Ec]. split; [|split; [discriminate|congruence]]. symmetry. apply insert_id. rewrite Ec. f_equal.
    pose proof (lookup_weaken _ _ _ _ Ec (no_sub _ _ _ K _ _ E)) as Z. rewrite N in Z. injection Z. auto.
  - exfalso. apply bool_decide_eq_false in Ep. apply Ep. exact Kn.
  - injection B as ->. apply contains_op_false in Ec. rewrite Gr. split; [reflexivity|]. tauto.
  - exfalso. exact (B b eq_refl).
Qed.
Lemma receive_members r c h op : n_reps n !! r = Some c -> ops !! h = Some op -> (forall p, p ∈ op_preds (so_op op) -> is_Some (g_ops (c_graph c) !! p)) ->
  g_ops (c_graph c) !! h = None -> let ops' := <[h := op]> (g_ops (c_graph c)) in
  match so_op op with
  | CAdd id _ _ _ _ => forall id', member ops' id' <-> id' = id \/ member (g_ops (c_graph c)) id'
  | CRemove id _ _ _ => forall id', member ops' id' <-> id' <> id /\ member (g_ops (c_graph c)) id'
  | CUpdate _ _ _ => forall id', member ops' id' <-> member (g_ops (c_graph c)) id'
  end.
Proof.
  intros E N Kn U. cbv zeta. pose proof (net_reachable_ok horder rorder HH HR _ R) as K. pose proof (graph_closed horder rorder HH HR n R r c E) as Cl.
  assert (so_hash op = h) by (eapply (oo_hash _ (no_ops _ _ _ K)); eauto). subst h.
  pose proof (changes_follow horder rorder HH n r c op K Od E N (proj2 (contains_op_false _ _) U) Kn) as Hf.
  destruct (so_op op) as [id pk i ps qs|id i ks ps|id pc ps] eqn:Eo; intros id'.
  - eapply next_add; [exact U|exact Cl| |exact Eo]. apply (graph_past r c _ op E U). rewrite Eo. specialize (Hf eq_refl). apply bool_decide_eq_true in Hf. exact Hf.
  - exact (next_remove _ _ _ U Cl id i ks ps id' Eo).
  - refine (next_update _ _ _ U Cl id' _). rewrite Eo. reflexivity.
Qed.

(** ** Changing the members *)
Lemma contains_member r c id : n_reps n !! r = Some c -> contains_id (c_tree c) id = true <-> member (g_ops (c_graph c)) id.
Proof.
  intros E. destruct (now_describes horder rorder HH HR n R Od r c E) as (h & Ds & _). rewrite (member_known horder rorder HH HR n R r c _ _ id E Ds).
  unfold contains_id. rewrite bool_decide_eq_true. reflexivity.
Qed.

Lemma every_add r c id pk h : n_reps n !! r = Some c -> g_ops (c_graph c) !! h = None ->
  (member (g_ops (c_graph c)) id -> cgka_add (horder r) (rorder r) c id pk h = (c, Ok None)) /\
  (~ member (g_ops (c_graph c)) id -> exists c' op i ps qs, cgka_add (horder r) (rorder r) c id pk h = (c', Ok (Some op)) /\ so_hash op = h /\ so_op op = CAdd id pk i ps qs /\
    g_ops (c_graph c') = <[h := op]> (g_ops (c_graph c)) /\ forall id', member (g_ops (c_graph c')) id' <-> id' = id \/ member (g_ops (c_graph c)) id').
Proof.
  intros E U. pose proof (net_reachable_ok horder rorder HH HR _ R) as K. destruct (net_fine horder rorder HH HR _ R Od) as [CA F].
  pose proof (contains_member r c id E) as Ci. unfold cgka_add. split.
  - intros M. apply Ci in M. rewrite M. reflexivity.
  - intros M. destruct (contains_id (c_tree c) id); [exfalso; apply M, Ci; reflexivity|].
    destruct (replay_works horder rorder HH HR n r c K Od CA E) as [c1 Em]. destruct (replayed_describes horder rorder HH HR n r c c1 K Od CA E Em) as [h1 Ds1].
    pose proof (maybe_replay_graph _ _ _ _ Em) as (Gr & _). rewrite Em.
    destruct (push_leaf_spec (c_tree c1) h1 id (SKey pk)) as (t' & i' & h' & Ep & _); [apply Ds1|eapply (next_le ops); exact Ds1|]. rewrite Ep.
    eexists _, _, _, _, _. split; [reflexivity|]. split; [reflexivity|]. split; [reflexivity|].
    cbn [c_graph set_graph set_tree add_local_op add_op_and_update_heads g_ops so_hash]. rewrite Gr. split; [reflexivity|]. intros id'.
    eapply next_add; [exact U|exact (graph_closed horder rorder HH HR n R r c E)| |reflexivity]. apply (graph_past r c _ _ E U). cbn [so_op op_preds]. rewrite horder_set by apply HH. reflexivity.
Qed.

Lemma every_remove r c id h : n_reps n !! r = Some c -> g_ops (c_graph c) !! h = None ->
  (~ member (g_ops (c_graph c)) id -> cgka_remove (horder r) (rorder r) c id h = (c, Ok None)) /\
  (member (g_ops (c_graph c)) id -> (exists id', id' <> id /\ member (g_ops (c_graph c)) id') ->
   exists c' op i ks ps, cgka_remove (horder r) (rorder r) c id h = (c', Ok (Some op)) /\ so_hash op = h /\ so_op op = CRemove id i ks ps /\
    g_ops (c_graph c') = <[h := op]> (g_ops (c_graph c)) /\ forall id', member (g_ops (c_graph c')) id' <-> id' <> id /\ member (g_ops (c_graph c)) id').
Proof.
  intros E U. pose proof (net_reachable_ok horder rorder HH HR _ R) as K. destruct (net_fine horder rorder HH HR _ R Od) as [CA F].
  pose proof (contains_member r c id E) as Ci. unfold cgka_remove. split.
  - intros M. destruct (contains_id (c_tree c) id); [exfalso; apply M, Ci; reflexivity|reflexivity].
  - intros M (id2 & N2 & M2). rewrite (proj2 Ci M). cbn [negb].
    destruct (replay_works horder rorder HH HR n r c K Od CA E) as [c1 Em]. destruct (replayed_describes horder rorder HH HR n r c c1 K Od CA E Em) as [h1 Ds1].
    pose proof (maybe_replay_graph _ _ _ _ Em) as (Gr & _). rewrite Em.
    apply (member_known horder rorder HH HR n R r c _ _ id E Ds1) in M as [i Ei]. apply (member_known horder rorder HH HR n R r c _ _ id2 E Ds1) in M2 as [i2 Ei2].
    assert (Sz : size (t_ids (c_tree c1)) <> 1).
    { intros Z. rewrite <- size_dom in Z. apply size_1_elem_of in Z as [z Z]. assert (id = z) by (assert (id ∈ dom (t_ids (c_tree c1))) by (apply elem_of_dom; eauto); set_solver).
      assert (id2 = z) by (assert (id2 ∈ dom (t_ids (c_tree c1))) by (apply elem_of_dom; eauto); set_solver). congruence. }
    unfold member_count. rewrite (proj2 (Nat.eqb_neq _ _) Sz).
    destruct (remove_id_wf (c_tree c1) h1 id i) as (t' & m & ks & Er & _); [apply Ds1|eapply describes_wfk; exact Ds1|eapply (next_le ops); exact Ds1|apply Ds1|apply Ds1|exact Ei|exact Sz|].
    rewrite Er. eexists _, _, _, _, _. split; [reflexivity|]. split; [reflexivity|]. split; [reflexivity|].
    cbn [c_graph set_graph set_tree add_local_op add_op_and_update_heads g_ops so_hash]. rewrite Gr. split; [reflexivity|]. intros id'.
    eapply next_remove; [exact U|exact (graph_closed horder rorder HH HR n R r c E)|reflexivity].
Qed.

(** Nothing comes before itself. *)
Lemma no_loops r c x : n_reps n !! r = Some c -> ~ came_before (g_ops (c_graph c)) x x.
Proof.
  intros E B. pose proof (net_reachable_ok horder rorder HH HR _ R) as K. pose proof (no_ops _ _ _ K) as OK. pose proof (no_sub _ _ _ K _ _ E) as Sub.
  apply (bef_irr ops OK x). apply (before_same (g_ops (c_graph c)) ops); [exact Sub|exact (graph_closed horder rorder HH HR n R r c E)| |exact B].
  apply tc_last in B as [(o & Eo & _)|(z & _ & (o & Eo & _))]; eauto.
Qed.
End net.
