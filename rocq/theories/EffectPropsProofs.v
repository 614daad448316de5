(** Lemmas behind the theorems of [EffectProps]. *)
From Coq Require Import Arith Lia.
From stdpp Require Import base list gmap relations.
From Verif Require Import ResModel KeysModel TreeMathModel TreeMathSpec TreeMathProofs TreeModel TreeSpec TreeOps TreeView TreeProofs TreeInv
  OpsModel OpsSpec OpsInv OpsProofs OpsPropsProofs CgkaModel CgkaSpec CgkaProofs CgkaReplay CgkaConverge NetSpec NetProofs NetKeys NetAgree NetInv NetRun
  GrowSpec GrowNet GrowReceive ReadSpec ReadTree ReadWorld ReadNet ReadMade ReadPropsProofs ReadRoster SecrecySpec TurnSecretSpec ShutSpec ShutPropsProofs EffectSpec.

Section net.
Context (horder : nat -> gset digest -> list digest).
Context (rorder : nat -> gset (member_id * nat) -> list (member_id * nat)).
Context (HH : forall r, some_order (horder r)) (HR : forall r, some_order (rorder r)).

Lemma steps_ops n n' : rtc (net_step horder rorder) n n' -> n_ops n ⊆ n_ops n'.
Proof. induction 1 as [|a b c S _ IH]; [reflexivity|]. etrans; [eapply step_ops; exact S|exact IH]. Qed.

(** After a removal that returns, the person is no member. *)
Lemma removed_gone n r c m h c' out : net_reachable horder rorder n -> orderly (n_ops n) -> n_reps n !! r = Some c -> g_ops (c_graph c) !! h = None ->
  cgka_remove (horder r) (rorder r) c m h = (c', Ok out) -> ~ member (g_ops (c_graph c')) m.
Proof.
  intros R Od E U Q. pose proof (net_reachable_ok horder rorder HH HR _ R) as K. destruct (net_fine horder rorder HH HR _ R Od) as [CA F].
  destruct (every_remove horder rorder HH HR n R Od r c m h E U) as [No Yes]. pose proof (contains_member horder rorder HH HR n R Od r c m E) as Ci.
  destruct (contains_id (c_tree c) m) eqn:C.
  - pose proof (proj1 Ci eq_refl) as M. assert (Ot : exists id', id' <> m /\ member (g_ops (c_graph c)) id').
    { unfold cgka_remove in Q. rewrite C in Q. cbn [negb] in Q. destruct (replay_works horder rorder HH HR n r c K Od CA E) as [c1 Em]. rewrite Em in Q.
      destruct (replayed_describes horder rorder HH HR n r c c1 K Od CA E Em) as [h1 Ds1]. destruct (Nat.eqb_spec (member_count (c_tree c1)) 1) as [Z|Z]; [discriminate|]. unfold member_count in Z.
      pose proof (proj1 (member_known horder rorder HH HR n R r c _ _ m E Ds1) M) as [i Ei].
      destruct (set_choose_or_empty (dom (t_ids (c_tree c1)) ∖ {[m]})) as [[z Hz]|Em'].
      - exists z. split; [set_solver|]. apply (member_known horder rorder HH HR n R r c _ _ z E Ds1). apply elem_of_difference in Hz as [Hz _]. apply elem_of_dom in Hz as [j Hj]. eauto.
      - exfalso. apply Z. rewrite <- size_dom. replace (dom (t_ids (c_tree c1))) with ({[m]} : gset member_id); [apply size_singleton|]. apply leibniz_equiv.
        assert (m ∈ dom (t_ids (c_tree c1))) by (apply elem_of_dom; eauto). intros z. split; [intros Hz; apply elem_of_singleton in Hz as ->; assumption|].
        intros Hz. destruct (decide (z = m)) as [-> |Nz]; [apply elem_of_singleton; reflexivity|]. exfalso. apply (not_elem_of_empty (C := gset member_id) z). apply Em'. apply elem_of_difference. split; [exact Hz|]. intros Hz'. apply elem_of_singleton in Hz'. congruence. }
    destruct (Yes M Ot) as (c2 & op & i & ks & ps & Q2 & _ & _ & _ & Mb). rewrite Q2 in Q. apply pair_equal_spec in Q as [<- _]. intros M'. apply Mb in M' as [M' _]. congruence.
  - assert (M : ~ member (g_ops (c_graph c)) m) by (intros M; apply Ci in M; discriminate). rewrite (No M) in Q. apply pair_equal_spec in Q as [<- _]. exact M.
Qed.

Lemma removal_shuts n r c m h c' out n' e (K : secret_key -> Prop) : net_reachable horder rorder n -> n_reps n !! r = Some c -> n_ops n !! h = None ->
  cgka_remove (horder r) (rorder r) c m h = (c', Ok out) ->
  rtc (net_step horder rorder) (moved n r c') n' -> orderly (n_ops n') -> fresh_secrets (n_ops n') -> e ∈ n_cts n' ->
  (forall x, is_Some (g_ops (c_graph c') !! x) -> by_then (n_ops n') (ec_op e) x) ->
  (forall x o pk i ps qs, by_then (n_ops n') (ec_op e) x -> n_ops n' !! x = Some o -> so_op o = CAdd m pk i ps qs -> is_Some (g_ops (c_graph c') !! x)) ->
  (forall s x o, K s -> n_ops n' !! x = Some o -> s ∈ secrets (so_op o) -> about (so_op o) = m) ->
  closed_to K (n_ops n') e.
Proof.
  intros R E U Q S Od FS He Kn Ad HK.
  assert (St : net_step horder rorder n (moved n r c')) by (eapply ns_remove; [exact E|exact U|exact Q]).
  assert (R1 : net_reachable horder rorder (moved n r c')) by (eapply nr_step; [exact R|exact St]). pose proof (steps_reachable _ _ _ _ R1 S) as R2.
  pose proof (net_reachable_ok horder rorder HH HR _ R) as K0. pose proof (net_reachable_ok horder rorder HH HR _ R1) as K1.
  pose proof (steps_ops _ _ S) as Su. assert (Su0 : n_ops n ⊆ n_ops n') by (etrans; [eapply step_ops; exact St|exact Su]).
  assert (Od0 : orderly (n_ops n)) by (eapply orderly_down; [exact Su0|apply (no_ops _ _ _ K0)|exact Od]).
  assert (U0 : g_ops (c_graph c) !! h = None).
  { destruct (g_ops (c_graph c) !! h) as [o|] eqn:G; [|reflexivity]. rewrite (lookup_weaken _ _ _ _ G (no_sub _ _ _ K0 _ _ E)) in U. discriminate. }
  pose proof (removed_gone n r c m h c' out R Od0 E U0 Q) as Gone.
  assert (E' : n_reps (moved n r c') !! r = Some c') by apply lookup_insert.
  assert (Su' : g_ops (c_graph c') ⊆ n_ops n') by (etrans; [exact (no_sub _ _ _ K1 _ _ E')|exact Su]).
  apply (outsiders_shut horder rorder HH HR n' R2 Od e (fun z => z = m) K FS He); [|exact HK].
  intros z -> (i & a & o & pk & ps & qs & Ba & Ea & Eo & Rm). apply Gone. destruct (Ad a o pk i ps qs Ba Ea Eo) as [o2 Ka].
  exists i, a, o, pk, ps, qs. split; [eauto|]. split; [rewrite (lookup_weaken _ _ _ _ Ka Su') in Ea; congruence|]. split; [exact Eo|]. intros r' o' j ks ps' Hr Er Eor.
  apply (before_same (g_ops (c_graph c')) (n_ops n') r' a); [exact Su'|exact (graph_closed horder rorder HH HR _ R1 r c' E')|eauto|].
  eapply Rm; [apply Kn; exact Hr|eapply lookup_weaken; [exact Er|exact Su']|exact Eor].
Qed.
End net.

(** ** Checks for the witnesses *)
Lemma acts_go n l : (match acts n l with Some _ => true | None => false end) = true -> rtc (net_step asc_h asc_r) n (net_of (acts n l)).
Proof. destruct (acts n l) as [n'|] eqn:E; [|discriminate]. intros _. apply (acts_steps l), E. Qed.
Lemma some_content n : (match n_cts n with [] => false | _ => true end) = true -> exists e, head (n_cts n) = Some e /\ e ∈ n_cts n.
Proof. destruct (n_cts n) as [|e l]; [discriminate|]. intros _. exists e. split; [reflexivity|left]. Qed.
Lemma head_check {A} (o : option A) (f : A -> bool) e : o = Some e -> match o with Some e => f e | None => false end = true -> f e = true.
Proof. intros ->. auto. Qed.
Definition sealed_after_b (ops known : gmap digest signed_op) (m : member_id) (h : digest) : bool :=
  forallb (fun x => then_b ops h x.1) (map_to_list known) &&
  forallb (fun x => match GrowPropsProofs.adds_id x.2 with Some id => negb (id =? m) || match known !! x.1 with Some _ => true | None => false end | None => true end) (map_to_list ops).
Lemma sealed_after_b_sound ops known m e : sealed_after_b ops known m (ec_op e) = true -> sealed_after ops known m e.
Proof.
  unfold sealed_after_b. rewrite andb_true_iff, !forallb_forall. intros [A B]. split.
  - intros x [o E]. apply then_b_sound. exact (A _ (in_ops _ _ _ E)).
  - intros x o pk i ps qs _ E Eo. specialize (B _ (in_ops _ _ _ E)). unfold GrowPropsProofs.adds_id in B. cbn in B. rewrite Eo, Nat.eqb_refl in B. cbn in B.
    destruct (known !! x); [eauto|discriminate].
Qed.
Definition opened_b (n : network) (e : encrypted_content) (keys : list secret_key) : bool :=
  existsb (fun k => match content_decrypt e (AppKey k (ec_preds e) (ec_ref e)) with Some _ => true | None => false end) (spreads 10 (all_sealed (n_ops n)) keys).
Lemma opened_b_sound n e keys (K : secret_key -> Prop) : (forall k, k ∈ keys -> K k) -> opened_b n e keys = true -> ~ closed_to K (n_ops n) e.
Proof.
  unfold opened_b. rewrite existsb_exists. intros HK (k & Hk & B) C. apply elem_of_list_In in Hk. rewrite (C k (ec_preds e) (ec_ref e)) in B; [discriminate|].
  eapply (spreads_sound _ K 10 keys); [|exact Hk]. intros s Hs. apply derivable_known, HK, Hs.
Qed.
Definition gone_b (ops : gmap digest signed_op) (id : member_id) : bool :=
  let l := map_to_list ops in
  forallb (fun x => match GrowPropsProofs.adds_id x.2 with
    | Some id' => negb (id' =? id) || existsb (fun y => removes_id y.2 id && before_b ops (size ops) x.1 y.1) l
    | None => true
    end) l.
Lemma gone_b_sound ops id : (forall x, ~ came_before ops x x) -> gone_b ops id = true -> ~ member ops id.
Proof.
  intros Irr. unfold gone_b. rewrite forallb_forall. intros B (i & a & o & pk & ps & qs & _ & Ea & Eo & Rm). specialize (B _ (in_ops _ _ _ Ea)). cbn in B. unfold GrowPropsProofs.adds_id in B.
  rewrite Eo, Nat.eqb_refl in B. cbn in B. apply existsb_exists in B as ([r o'] & Hr & B). apply elem_of_list_In, elem_of_map_to_list in Hr. cbn in B. apply andb_true_iff in B as [B1 B2].
  unfold removes_id in B1. destruct (so_op o') as [|id' j ks ps'|] eqn:Eor; try discriminate. apply Nat.eqb_eq in B1 as ->. apply (Irr a). eapply tc_transitive; [eapply before_b_sound; exact B2|].
  eapply Rm; [eauto|exact Hr|exact Eor].
Qed.
Lemma remove_stranger ho ro c id h : contains_id (c_tree c) id = false -> cgka_remove ho ro c id h = (c, Ok None).
Proof. unfold cgka_remove. intros ->. reflexivity. Qed.
Lemma add_known ho ro c id pk h : contains_id (c_tree c) id = true -> cgka_add ho ro c id pk h = (c, Ok None).
Proof. unfold cgka_add. intros ->. reflexivity. Qed.
Definition made_op (r : cgka * res (option signed_op)) : option signed_op := match r.2 with Ok o => o | _ => None end.
Lemma made_ok (r : cgka * res (option signed_op)) : (match r.2 with Ok (Some _) => true | _ => false end) = true -> exists o, r = (r.1, Ok (Some o)).
Proof. destruct r as [c [[o|]| | |]]; cbn; try discriminate. eauto. Qed.
Lemma update_without ho ro c m k u rng : match cgka_update ho ro c k u rng with (c', Ok _) => negb (contains_id (c_tree c') m) | _ => false end = true ->
  exists c' s op rest, cgka_update ho ro c k u rng = (c', Ok (s, op, rest)) /\ contains_id (c_tree c') m = false.
Proof. destruct (cgka_update ho ro c k u rng) as [c' [[[s op] rest]| | |]]; try discriminate. intros Q. apply negb_true_iff in Q. eauto 10. Qed.
