(** Secrecy in networks in which operations are made in turn. *)
From Coq Require Import Arith Lia.
From stdpp Require Import base list gmap relations.
From Verif Require Import ResModel KeysModel TreeMathModel TreeMathSpec TreeMathProofs TreeModel TreeSpec TreeOps TreeView TreeProofs TreeInv TreeRun SecrecySpec SecrecyProofs TreePropsProofs SecrecyTime SecrecyOpen TurnTree
  OpsModel OpsSpec OpsInv OpsProofs OpsEpochs OpsPropsProofs OpsExtend
  CgkaModel CgkaSpec CgkaProofs CgkaReplay CgkaConverge CgkaSound NetSpec NetProofs NetKeys NetAgree NetInv DocKeys TurnSpec TurnLine TurnCalls TurnProofs TurnPropsProofs TurnRead TurnSecretSpec.

(** ** Lines *)
Lemma line_length id pk L G T ops pcs : line id pk L G T ops pcs -> length L = S (length ops).
Proof. induction 1 as [h t E|l g t ops pcs o op x t' L IH F P A Ec Q T]; [reflexivity|]. rewrite !app_length, IH. cbn. lia. Qed.
Lemma line_pcs id pk L G T ops pcs pc : line id pk L G T ops pcs -> pc ∈ pcs <-> exists o m ps, o ∈ L /\ so_op o = CUpdate m pc ps.
Proof.
  induction 1 as [h t E|l g t ops pcs o op x t' L IH F P A Ec Q T].
  - split; [intros H; inversion H|]. intros (o & m & ps & Ho & Eo). apply elem_of_list_singleton in Ho as ->. discriminate.
  - rewrite elem_of_app, IH. split.
    + intros [(o1 & m & ps & Ho & Eo)|H]; [exists o1, m, ps; set_solver|]. destruct x as [pc'|]; [|inversion H].
      apply elem_of_list_singleton in H as ->. destruct (so_op o) as [i p li ps aps|i li ks ps|i pc ps] eqn:Eo; cbn in Ec.
      * destruct Ec as [-> C]. cbn [op_step] in Q. rewrite C in Q. destruct (push_leaf t i (SKey p)) as [[]| | |]; discriminate.
      * subst op. cbn [op_step] in Q. destruct (contains_id t i); [|discriminate]. cbn in Q. destruct (member_count t =? 1); [discriminate|]. destruct (remove_id t i) as [[? []]| | |]; discriminate.
      * destruct Ec as (sk & rng & -> & Ex). injection Ex as <-. exists o, i, ps. set_solver.
    + intros (o1 & m & ps & Ho & Eo). apply elem_of_app in Ho as [Ho|Ho]; [left; eauto|]. apply elem_of_list_singleton in Ho as ->. right.
      rewrite Eo in Ec. destruct Ec as (sk & rng & -> & ->). left.
Qed.
(** A set of operations is in one order only. *)
Lemma line_part id pk id' pk' l g t ops pcs L G T ops' pcs' : line id pk l g t ops pcs -> line id' pk' L G T ops' pcs' -> g_ops g ⊆ g_ops G ->
  exists rest, L = l ++ rest.
Proof.
  intros Ll LL. induction Ll as [h t E|l g t ops pcs o op x t' Ll IH F P A Ec Q Tt]; intros Sb.
  - destruct (line_first _ _ _ _ _ _ _ LL) as (h0 & rest & EL).
    assert (E1 : g_ops G !! h0 = Some (SignedOp h0 (init_add id' pk'))) by (apply (line_ops _ _ _ _ _ _ _ LL); rewrite EL; split; [set_solver|reflexivity]).
    assert (E2 : g_ops G !! h = Some (SignedOp h (init_add id pk))) by (eapply lookup_weaken; [|exact Sb]; cbn; apply lookup_insert).
    assert (h = h0) as -> by (eapply (line_root _ _ _ _ _ _ _ LL); [exact E2|exact E1|reflexivity|reflexivity]).
    rewrite E1 in E2. injection E2 as -> ->. exists rest. exact EL.
  - assert (Sb' : g_ops g ⊆ g_ops G).
    { etransitivity; [|exact Sb]. cbn. apply insert_subseteq, F. }
    destruct (IH Sb') as [rest ->].
    assert (Eo : g_ops G !! so_hash o = Some o) by (eapply lookup_weaken; [|exact Sb]; cbn; apply lookup_insert).
    apply (line_ops _ _ _ _ _ _ _ LL) in Eo as [Eo _]. apply elem_of_app in Eo as [Eo|Eo].
    { exfalso. assert (X : g_ops g !! so_hash o = Some o) by (apply (line_ops _ _ _ _ _ _ _ Ll); auto). congruence. }
    apply elem_of_list_split in Eo as (r1 & r2 & ->). destruct (line_head _ _ _ _ _ _ _ Ll) as (l0 & o0 & E0 & Hh).
    rewrite app_assoc in LL. assert (Nl : l ++ r1 <> []) by (rewrite E0; destruct l0; discriminate).
    destruct (line_prefix _ _ _ _ _ _ _ _ LL Nl) as (g1 & t1 & ops1 & pcs1 & ? & ? & L1 & _).
    destruct (line_follow _ _ _ _ _ _ _ _ _ _ _ _ _ LL L1) as (_ & _ & _ & _ & _ & P1 & _).
    destruct (line_head _ _ _ _ _ _ _ L1) as (l2 & o2 & E2 & Hh2). rewrite P, Hh, Hh2 in P1. assert (Eh : so_hash o0 = so_hash o2) by set_solver.
    destruct (list_split_hash _ _ _ _ _ _ _ l0 o0 r1 l2 o2 [] L1) as (-> & -> & ->); [rewrite E0, <- app_assoc; reflexivity|exact E2|exact Eh|].
    exists r2. cbn [app]. rewrite <- app_assoc. reflexivity.
Qed.
Lemma line_same id pk id' pk' l g t ops pcs L G T ops' pcs' : line id pk l g t ops pcs -> line id' pk' L G T ops' pcs' -> g_ops g = g_ops G -> l = L /\ id = id' /\ pk = pk'.
Proof.
  intros Ll LL E. destruct (line_part _ _ _ _ _ _ _ _ _ _ _ _ _ _ Ll LL) as [r ->]; [rewrite E; reflexivity|]. destruct r as [|o r].
  - rewrite app_nil_r in *. split; [reflexivity|]. destruct (line_first _ _ _ _ _ _ _ Ll) as (h & q & E1). destruct (line_first _ _ _ _ _ _ _ LL) as (h' & q' & E2). rewrite E1 in E2. injection E2 as _ <- <- _. auto.
  - exfalso. assert (X : g_ops g !! so_hash o = Some o) by (rewrite E; apply (line_ops _ _ _ _ _ _ _ LL); set_solver).
    apply (line_ops _ _ _ _ _ _ _ Ll) in X as [X _]. pose proof (line_nodup _ _ _ _ _ _ _ LL) as ND. rewrite map_app in ND. apply NoDup_app in ND as (_ & ND & _).
    eapply ND; [apply elem_of_list_fmap; eauto|]. cbn. set_solver.
Qed.

(** ** Calls *)
Section calls.
Context (horder : gset digest -> list digest) (rorder : gset (member_id * nat) -> list (member_id * nat)) (HH : some_order horder).

Lemma add_shape c i p h c' o : cgka_add horder rorder c i p h = (c', Ok (Some o)) -> exists li ps aps, so_op o = CAdd i p li ps aps.
Proof.
  unfold cgka_add. destruct (contains_id _ _); [discriminate|]. destruct (maybe_replay _ _ _); [|discriminate..]. destruct (push_leaf _ _ _) as [[]| | |]; try discriminate.
  intros Q. injection Q as _ <-. eauto.
Qed.
Lemma remove_shape c i h c' o : cgka_remove horder rorder c i h = (c', Ok (Some o)) -> exists li ks ps, so_op o = CRemove i li ks ps.
Proof.
  unfold cgka_remove. destruct (negb _); [discriminate|]. destruct (maybe_replay _ _ _); [|discriminate..]. destruct (_ =? _); [discriminate|].
  destruct (remove_id _ _) as [[? []]| | |]; try discriminate. intros Q. injection Q as _ <-. eauto.
Qed.
Lemma update_echo id pk l c sk h rng c' k o rest : has_line id pk l c -> good_sks (c_sks c) -> cgka_update horder rorder c sk h rng = (c', Ok (k, o, rest)) ->
  exists m pc ps s, so_op o = CUpdate m pc ps /\ pc_leaf_pk pc = SKey s /\ op_step (c_tree c) (OUpdate m s rng) = Ok (c_tree c', Some pc).
Proof.
  intros G GS Q. pose proof (line_settled horder rorder _ _ _ _ G) as E. destruct G as (ops & pcs & L & P & O & I). unfold cgka_update in Q. rewrite E in Q.
  destruct (update_identity c (pub sk) sk) as [[[m p] s]| | |] eqn:U; [|discriminate..].
  assert (W : p = s /\ exists i, t_ids (c_tree c) !! m = Some i).
  { unfold update_identity in U. destruct (contains_id (c_tree c) (c_owner c)) eqn:C.
    - injection U as <- <- <-. split; [reflexivity|]. unfold contains_id in C. apply bool_decide_eq_true in C. destruct C as [i C]. eauto.
    - destruct (node_key_for_id (c_tree c) public_id) as [[q|]| | |] eqn:K; try discriminate.
      destruct (c_sks c !! q) as [z|] eqn:Z; [|discriminate]. cbn in U. injection U as <- <- <-. split; [apply GS in Z; symmetry; exact Z|].
      unfold node_key_for_id, leaf_index_for_id in K. destruct (t_ids (c_tree c) !! public_id); [eauto|discriminate]. }
  destruct W as (-> & i & Ei).
  pose proof (line_reach _ _ _ _ _ _ _ L) as R. destruct (reachable_inv _ _ _ _ _ R) as (ht & V & Ab).
  cbn [c_tree c_sks set_sks] in Q. rewrite (encrypt_path_spec _ _ _ _ s _ _ V Ei) in Q by apply lookup_insert.
  destruct (enc_versions (c_tree c) ht 0 i s rng) as [[vs rng']|] eqn:EV; [|discriminate].
  injection Q as <- <- <- <-. do 4 eexists. split; [reflexivity|]. split; [reflexivity|].
  cbn [op_step c_tree set_graph set_tree insert_pcs_key]. unfold pub. rewrite (encrypt_path_spec _ _ _ _ s _ _ V Ei) by apply lookup_singleton. rewrite EV. reflexivity.
Qed.
Lemma secret_cases id pk l c ref content preds sk h rng c' x : has_line id pk l c -> good_sks (c_sks c) -> g_ops (c_graph c) !! h = None ->
  new_app_secret_for horder rorder c ref content preds sk h rng = (c', x) ->
  (quiet c c' /\ forall a o, x <> Ok (a, Some o)) \/
  (has_pcs_key c = Ok false /\ exists c1 k o rest a, cgka_update horder rorder c sk h rng = (c1, Ok (k, o, rest)) /\ quiet c1 c' /\ x = Ok (a, Some o)).
Proof.
  intros G GS N Q. unfold new_app_secret_for in Q. cbv zeta in Q.
  destruct (has_pcs_key c) as [[]| | |]; [| |injection Q as <- <-; left; split; [apply quiet_refl|discriminate]..].
  - left. destruct (pcs_key_from_tree_root c) as [c1 r1] eqn:E. apply root_quiet in E.
    destruct r1 as [k| | |]; try (injection Q as <- <-; split; [exact E|discriminate]).
    destruct (c_pcs c1 !! pcs_digest k); [destruct (c_pcs_ops c1 !! pcs_digest k); injection Q as <- <-; (split; [exact E|congruence])|].
    destruct (horder (g_heads (c_graph c1))) as [|hd tl]; [destruct (c_pcs_ops c1 !! pcs_digest k); injection Q as <- <-; (split; [exact E|congruence])|].
    cbn [c_pcs_ops insert_pcs_key] in Q. rewrite lookup_insert in Q. injection Q as <- <-. split; [|congruence]. eapply quiet_trans; [exact E|apply quiet_pcs].
  - destruct (cgka_update horder rorder c sk h rng) as [c1 r1] eqn:E. destruct (update_line horder rorder HH id pk _ _ _ _ _ _ _ G GS N E) as [[E1 X]|(k & o & rest & -> & E1)].
    + left. destruct r1 as [[[? ?] ?]| | |]; [exfalso; eapply X; reflexivity|injection Q as <- <-; (split; [exact E1|discriminate])..].
    + right. split; [reflexivity|]. cbn [c_pcs_ops insert_pcs_key] in Q. rewrite lookup_insert in Q. injection Q as <- <-.
      do 5 eexists. split; [reflexivity|]. split; [apply quiet_pcs|reflexivity].
Qed.
End calls.

(** The operation the replica made extends a given line. *)
Lemma grown_extends id pk L c h c' o G T ops pcs op x : line id pk L G T ops pcs -> has_line id pk L c -> grown id pk L h c c' o ->
  (exists y, echoes (c_tree c) (so_op o) op y /\ op_step (c_tree c) op = Ok (c_tree c', y) /\ x = y) ->
  line id pk (L ++ [o]) (c_graph c') (c_tree c') (ops ++ [op]) (pcs ++ option_list x).
Proof.
  intros LL (ops0 & pcs0 & L0 & _) [(ops1 & pcs1 & L1 & _) _ _ _ _] (y & Ec & S & ->).
  destruct (line_det _ _ _ _ _ _ _ _ _ _ _ LL L0) as [-> ->]. assert (Nl : L <> []) by (intros ->; apply line_first in LL as (? & ? & ?); discriminate).
  apply line_ends in L1 as (g2 & t2 & ops2 & pcs2 & op2 & x2 & L2 & F & P & A & _ & _ & Tt & -> & _); [|exact Nl].
  destruct (line_det _ _ _ _ _ _ _ _ _ _ _ LL L2) as [<- <-]. eapply ln_next; eauto.
Qed.
Lemma grown_echo id pk L c h c' o : has_line id pk L c -> grown id pk L h c c' o -> exists op x, echoes (c_tree c) (so_op o) op x /\ op_step (c_tree c) op = Ok (c_tree c', x).
Proof.
  intros (ops0 & pcs0 & L0 & _) [(ops1 & pcs1 & L1 & _) _ _ _ _]. assert (Nl : L <> []) by (intros ->; apply line_first in L0 as (? & ? & ?); discriminate).
  apply line_ends in L1 as (g2 & t2 & ops2 & pcs2 & op2 & x2 & L2 & F & P & A & Ec & S & Tt & _ & _); [|exact Nl].
  destruct (line_det _ _ _ _ _ _ _ _ _ _ _ L0 L2) as [<- <-]. eauto.
Qed.

(** The ledger goes with the line. *)
Definition ledger_line (n : network) (led : ledger) : Prop :=
  exists id pk L G T ops pcs, line id pk L G T ops pcs /\ n_ops n = g_ops G /\ map fst led = map so_hash L /\ map snd led = OAdd id pk :: ops.

Section turns.
Context (horder : nat -> gset digest -> list digest).
Context (rorder : nat -> gset (member_id * nat) -> list (member_id * nat)).
Context (HH : forall r, some_order (horder r)) (HR : forall r, some_order (rorder r)).
Notation turns := (turns horder rorder).
Notation turn_step := (turn_step horder rorder).
Notation logged := (logged horder rorder).

Lemma logged_turns n led : logged n led -> turns n.
Proof.
  induction 1; try (eapply tn_step; [eassumption|]).
  - apply tn_start; assumption.
  - assumption.
  - eapply tu_add; eauto.
  - eapply tu_remove; eauto.
  - eapply tu_update; eauto.
  - eapply tu_encrypt; eauto.
Qed.

(** An informed replica has the line of the ledger. *)
Lemma informed_has n led r c : turns n -> ledger_line n led -> n_reps n !! r = Some c -> informed n c ->
  exists id pk L ops pcs, line id pk L (c_graph c) (c_tree c) ops pcs /\ has_line id pk L c /\ turn_good id pk L n /\ map fst led = map so_hash L /\ map snd led = OAdd id pk :: ops.
Proof.
  intros R (id & pk & L & G & T & ops & pcs & LL & En & E1 & E2) E I.
  destruct (turns_good _ _ HH HR _ R) as (id' & pk' & L' & TG). pose proof TG as [(G' & T' & ops' & pcs' & LL' & En') B _].
  destruct (line_same _ _ _ _ _ _ _ _ _ _ _ _ _ _ LL LL') as (<- & <- & <-); [congruence|].
  destruct (B _ _ E) as (l & rest & EL & Hl). pose proof (informed_all _ _ _ _ _ _ _ TG EL Hl I) as ->. pose proof Hl as (ops0 & pcs0 & L0 & _).
  destruct (line_det _ _ _ _ _ _ _ _ _ _ _ LL L0) as [-> ->]. exists id, pk, L, ops, pcs. auto.
Qed.
Lemma ledger_grows n led r c h c' o op x : turns n -> ledger_line n led -> n_reps n !! r = Some c -> informed n c ->
  (forall id pk L, has_line id pk L c -> grown id pk L h c c' o) -> echoes (c_tree c) (so_op o) op x -> op_step (c_tree c) op = Ok (c_tree c', x) ->
  ledger_line (moved n r c') (led ++ [(h, op)]).
Proof.
  intros R Ll E I Gr Ec S. destruct (informed_has _ _ _ _ R Ll E I) as (id & pk & L & ops & pcs & L0 & Hl & TG & E1 & E2).
  specialize (Gr _ _ _ Hl). pose proof (grown_extends _ _ _ _ _ _ _ _ _ _ _ op x L0 Hl Gr (ex_intro _ x (conj Ec (conj S eq_refl)))) as L1.
  exists id, pk, (L ++ [o]), (c_graph c'), (c_tree c'), (ops ++ [op]), (pcs ++ option_list x). split; [exact L1|]. split.
  - cbn. rewrite <- I. apply map_subseteq_union. apply map_subseteq_spec. intros y q Y. apply (line_ops _ _ _ _ _ _ _ L0) in Y as [Y1 Y2].
    apply (line_ops _ _ _ _ _ _ _ L1). split; [set_solver|exact Y2].
  - rewrite !map_app, E1, E2. split; [|reflexivity]. cbn. rewrite (gw_hash _ _ _ _ _ _ _ Gr). reflexivity.
Qed.
Lemma sks_good n r c : turns n -> n_reps n !! r = Some c -> good_sks (c_sks c).
Proof. intros R E. pose proof (net_reachable_good _ _ HH HR _ (turns_net _ _ HH HR _ R)) as NG. exact (lg_sks _ (ng_local _ _ _ NG _ _ E)). Qed.
Lemma fresh_rep n r c h : turns n -> n_reps n !! r = Some c -> n_ops n !! h = None -> g_ops (c_graph c) !! h = None.
Proof.
  intros R E N. pose proof (net_reachable_good _ _ HH HR _ (turns_net _ _ HH HR _ R)) as NG. eapply lookup_weaken_None; [exact N|]. exact (no_sub _ _ _ (ng_ok _ _ _ NG) _ _ E).
Qed.

Lemma logged_line n led : logged n led -> ledger_line n led.
Proof.
  induction 1 as [r id pk h c sks E GS|n led n' Lg IH St En|n led r c c' id pk h op Lg IH E I N Q|n led r c c' id h op Lg IH E I N Q
    |n led r c c' sk h rng k op rest id pc ps s Lg IH E I N Q Eo Ep|n led r c c' ref content preds sk h rng a op id pc ps s Lg IH E I N Q Eo Ep].
  - destruct (join_line _ _ _ _ id sks E) as (ops & pcs & L0 & _). pose proof L0 as L1. apply line_single in L1 as (h' & Eh & _ & Eg). injection Eh as <-.
    inversion L0 as [? ? Et|? ? ? ? ? ? ? ? ? L2 F P A Ec Q Tt El]; subst.
    + exists id, pk, [SignedOp h (init_add id pk)], (add_local_op graph_new (SignedOp h (init_add id pk))), (c_tree (with_new_owner c id sks)), [], [].
      split; [apply ln_first, Et|]. cbn. rewrite insert_empty. auto.
    + exfalso. destruct l as [|? [|? ?]]; [|discriminate El..]. apply line_first in L2 as (? & ? & ?). discriminate.
  - destruct IH as (id & pk & L & G & T & ops & pcs & LL & E0 & E1 & E2). exists id, pk, L, G, T, ops, pcs. rewrite En. auto.
  - pose proof (logged_turns _ _ Lg) as R. pose proof (fresh_rep _ _ _ _ R E N) as Fr.
    destruct (informed_has _ _ _ _ R IH E I) as (i0 & p0 & L & ops & pcs & L0 & Hl & _).
    assert (Gr : forall id0 pk0 L, has_line id0 pk0 L c -> grown id0 pk0 L h c c' op).
    { intros ? ? ? H. destruct (add_line _ _ (HH r) _ _ _ _ _ _ _ _ _ H Fr Q) as [[_ X]|(o & X & Gr)]; [discriminate|]. injection X as <-. exact Gr. }
    destruct (add_shape _ _ _ _ _ _ _ _ Q) as (li & ps & aps & So). destruct (grown_echo _ _ _ _ _ _ _ Hl (Gr _ _ _ Hl)) as (op' & x & Ec & S).
    pose proof Ec as Ec'. rewrite So in Ec'. destruct Ec' as [-> _]. eapply ledger_grows; eauto.
  - pose proof (logged_turns _ _ Lg) as R. pose proof (fresh_rep _ _ _ _ R E N) as Fr.
    destruct (informed_has _ _ _ _ R IH E I) as (i0 & p0 & L & ops & pcs & L0 & Hl & _).
    assert (Gr : forall id0 pk0 L, has_line id0 pk0 L c -> grown id0 pk0 L h c c' op).
    { intros ? ? ? H. destruct (remove_line _ _ (HH r) _ _ _ _ _ _ _ _ H Fr Q) as [[_ X]|(o & X & Gr)]; [exfalso; eapply X; reflexivity|]. injection X as <-. exact Gr. }
    destruct (remove_shape _ _ _ _ _ _ _ Q) as (li & ks & ps & So). destruct (grown_echo _ _ _ _ _ _ _ Hl (Gr _ _ _ Hl)) as (op' & x & Ec & S).
    pose proof Ec as Ec'. rewrite So in Ec'. cbn in Ec'. subst op'. eapply ledger_grows; eauto.
  - pose proof (logged_turns _ _ Lg) as R. pose proof (fresh_rep _ _ _ _ R E N) as Fr. pose proof (sks_good _ _ _ R E) as GS.
    destruct (informed_has _ _ _ _ R IH E I) as (i0 & p0 & L & ops & pcs & L0 & Hl & _).
    assert (Gr : forall id0 pk0 L, has_line id0 pk0 L c -> grown id0 pk0 L h c c' op).
    { intros ? ? ? H. destruct (update_line _ _ (HH r) _ _ _ _ _ _ _ _ _ H GS Fr Q) as [[_ X]|(k' & o & rest' & X & Gr)]; [exfalso; eapply X; reflexivity|]. injection X as _ <- _. exact Gr. }
    destruct (update_echo _ _ _ _ _ _ _ _ _ _ _ _ _ Hl GS Q) as (m & pc' & ps' & s' & So & Sp & S). rewrite Eo in So. injection So as <- <- <-. rewrite Ep in Sp. injection Sp as <-.
    eapply ledger_grows; [exact R|exact IH|exact E|exact I|exact Gr| |exact S]. rewrite Eo. exists s, rng. auto.
  - pose proof (logged_turns _ _ Lg) as R. pose proof (fresh_rep _ _ _ _ R E N) as Fr. pose proof (sks_good _ _ _ R E) as GS.
    destruct (informed_has _ _ _ _ R IH E I) as (i0 & p0 & L & ops & pcs & L0 & Hl & _).
    destruct (secret_cases _ _ (HH r) _ _ _ _ _ _ _ _ _ _ _ _ Hl GS Fr Q) as [[_ X]|(_ & c1 & k & o & rest & a' & Q1 & Qu & X)]; [exfalso; eapply X; reflexivity|]. injection X as <- <-.
    assert (Gr : forall id0 pk0 L, has_line id0 pk0 L c -> grown id0 pk0 L h c c' op).
    { intros ? ? ? H. destruct (update_line _ _ (HH r) _ _ _ _ _ _ _ _ _ H GS Fr Q1) as [[_ X]|(k' & o & rest' & X & Gr)]; [exfalso; eapply X; reflexivity|]. injection X as _ <- _. eapply grown_quiet; eauto. }
    destruct (update_echo _ _ _ _ _ _ _ _ _ _ _ _ _ Hl GS Q1) as (m & pc' & ps' & s' & So & Sp & S). rewrite Eo in So. injection So as <- <- <-. rewrite Ep in Sp. injection Sp as <-.
    assert (LLn : ledger_line (moved n r c') (led ++ [(h, OUpdate id s rng)])).
    { eapply ledger_grows; [exact R|exact IH|exact E|exact I|exact Gr| |rewrite (q_tree _ _ Qu); exact S]. rewrite Eo. exists s, rng. auto. }
    exact LLn.
Qed.

(** Every run has a ledger. *)
Lemma sub_quiet n r c' : g_ops (c_graph c') ⊆ n_ops n -> n_ops (moved n r c') = n_ops n.
Proof. intros S. cbn. apply union_absorb, S. Qed.
Lemma turns_logged n : turns n -> exists led, logged n led.
Proof.
  induction 1 as [r id pk h c sks E GS|n n' R (led & Lg) S].
  - eexists. apply lg_start; eassumption.
  - pose proof (turns_net _ _ HH HR _ R) as NR. pose proof (net_reachable_good horder rorder HH HR _ NR) as NG.
    pose proof S as St. pose proof (turns_net _ _ HH HR _ (tn_step _ _ _ _ R S)) as NR'. destruct (turns_good _ _ HH HR _ R) as (id & pk & L & TG). pose proof TG as [(G & T & ops & pcs & LL & En) B _].
    assert (SU : forall r c, n_reps n !! r = Some c -> g_ops (c_graph c) ⊆ n_ops n) by (intros r c E; exact (no_sub _ _ _ (ng_ok _ _ _ NG) _ _ E)).
    assert (QU : forall r c c', n_reps n !! r = Some c -> quiet c c' -> n_ops (moved n r c') = n_ops n) by (intros r c c' E Q; apply sub_quiet; rewrite (q_graph _ _ Q); eauto).
    destruct S as [r id' pk' h c me sks N E E0 GS|r c s E|r c c' i p h x E I N Q|r c c' i h x E I N Q|r c c' sk h rng x E I N Q|r c c' h op x E Eo Q|r c c' ref content preds sk h rng s o E I N Q|r c c' ref content preds sk h rng x E I N Q X|r c c' e x E He Q].
    + exists led. eapply lg_quiet; [exact Lg|exact St|]. apply sub_quiet. cbn. rewrite (init_graph _ _ _ _ E0). apply map_singleton_subseteq_l, E.
    + exists led. eapply lg_quiet; [exact Lg|exact St|]. apply sub_quiet. cbn. eauto.
    + destruct (B _ _ E) as (l & rest & EL & Hl). destruct (add_line _ _ (HH r) _ _ _ _ _ _ _ _ _ Hl (fresh_rep _ _ _ _ R E N) Q) as [[-> _]|(o & -> & Gr)].
      * exists led. eapply lg_quiet; [exact Lg|exact St|]. eapply QU; [exact E|apply quiet_refl].
      * eexists. eapply lg_add; eauto.
    + destruct (B _ _ E) as (l & rest & EL & Hl). destruct (remove_line _ _ (HH r) _ _ _ _ _ _ _ _ Hl (fresh_rep _ _ _ _ R E N) Q) as [[-> _]|(o & -> & Gr)].
      * exists led. eapply lg_quiet; [exact Lg|exact St|]. eapply QU; [exact E|apply quiet_refl].
      * eexists. eapply lg_remove; eauto.
    + destruct (B _ _ E) as (l & rest & EL & Hl). pose proof (sks_good _ _ _ R E) as GS.
      destruct (update_line _ _ (HH r) _ _ _ _ _ _ _ _ _ Hl GS (fresh_rep _ _ _ _ R E N) Q) as [[Qu _]|(k & o & rest' & -> & Gr)].
      * exists led. eapply lg_quiet; [exact Lg|exact St|]. eapply QU; eauto.
      * destruct (update_echo _ _ _ _ _ _ _ _ _ _ _ _ _ Hl GS Q) as (m & pc & ps & s & So & Sp & _). eexists. eapply (lg_update _ _ n led r c c' sk h rng k o rest' m pc ps s); eauto.
    + exists led. eapply lg_quiet; [exact Lg|exact St|]. destruct (B _ _ E) as (l & rest & EL & Hl). rewrite En in Eo. apply (line_ops _ _ _ _ _ _ _ LL) in Eo as [Eo _]. destruct rest as [|o rest].
      * rewrite app_nil_r in EL. subst l. assert (c' = c) as ->.
        { destruct Hl as (ops0 & pcs0 & L0 & _). unfold merge_concurrent_operation in Q. rewrite (proj2 (contains_some _ _)) in Q; [injection Q as <- _; reflexivity|].
          exists op. apply (line_ops _ _ _ _ _ _ _ L0). auto. }
        eapply QU; [exact E|apply quiet_refl].
      * pose proof LL as LL'. rewrite EL in Eo, LL'. destruct (receive_line _ _ _ _ _ _ _ _ _ _ _ _ _ _ _ LL' Hl Eo Q) as [(_ & -> & _)|[(-> & _ & H1 & H2 & H3)|(_ & -> & _)]]; try (eapply QU; [exact E|apply quiet_refl]).
        apply sub_quiet. rewrite En. eapply (prefix_sub _ _ L (l ++ [o]) rest); [exact LL|rewrite <- app_assoc; exact EL|exact H1].
    + destruct (B _ _ E) as (l & rest & EL & Hl). pose proof (sks_good _ _ _ R E) as GS. pose proof (fresh_rep _ _ _ _ R E N) as Fr.
      destruct (secret_cases _ _ (HH r) _ _ _ _ _ _ _ _ _ _ _ _ Hl GS Fr Q) as [[Qu _]|(P & c1 & k & o' & rest' & a & Q1 & Qu & X)].
      * exists led. eapply lg_quiet; [exact Lg|exact St|]. cbn [sent n_ops]. eapply QU; eauto.
      * injection X as <- ->. destruct I as [I|I]; [|congruence].
        destruct (update_echo _ _ _ _ _ _ _ _ _ _ _ _ _ Hl GS Q1) as (m & pc & ps & z & So & Sp & _). eexists. eapply (lg_encrypt _ _ n led r c c' ref content preds sk h rng s o' m pc ps z); eauto.
    + destruct (B _ _ E) as (l & rest & EL & Hl). pose proof (sks_good _ _ _ R E) as GS. pose proof (fresh_rep _ _ _ _ R E N) as Fr.
      destruct (secret_cases _ _ (HH r) _ _ _ _ _ _ _ _ _ _ _ _ Hl GS Fr Q) as [[Qu _]|(P & c1 & k & o' & rest' & a & Q1 & Qu & Y)].
      * exists led. eapply lg_quiet; [exact Lg|exact St|]. eapply QU; eauto.
      * exfalso. eapply X. exact Y.
    + exists led. eapply lg_quiet; [exact Lg|exact St|]. eapply QU; [exact E|]. eapply decryption_quiet; exact Q.
Qed.

(** The ledger names the operations, once each, and rosters follow it. *)
Lemma ledger_names n led : logged n led -> NoDup (map fst led) /\ forall h, is_Some (n_ops n !! h) <-> h ∈ map fst led.
Proof.
  intros Lg. destruct (logged_line _ _ Lg) as (id & pk & L & G & T & ops & pcs & LL & En & E1 & E2). rewrite E1. split; [eapply line_nodup; exact LL|].
  intros h. rewrite En, elem_of_list_fmap. split.
  - intros [o Eo]. apply (line_ops _ _ _ _ _ _ _ LL) in Eo as [Eo <-]. eauto.
  - intros (o & -> & Ho). exists o. apply (line_ops _ _ _ _ _ _ _ LL). auto.
Qed.

(** The key of a message is the root key of the tree at the operation it was sealed under. *)
Lemma message_key n led e g : logged n led -> e ∈ n_cts n -> roster (n_ops n) (ec_op e) g ->
  exists id pk ops0 ops1 t0 t pcs0 pcs led0 op led1 hh,
    reachable id pk ops0 t0 pcs0 /\ reachable id pk (ops0 ++ ops1) t pcs /\ abs_group t0 g /\
    led = led0 ++ (ec_op e, op) :: led1 /\ map snd (led0 ++ [(ec_op e, op)]) = OAdd id pk :: ops0 /\ map snd led1 = ops1 /\
    nkey t0 hh 0 = Some (ec_pcs e) /\ (forall x, seen (n_ops n) x -> published pcs x) /\ ct_key (ec_cipher e) = AppKey (ec_pcs e) (ec_preds e) (ec_ref e) /\
    ct_nonce (ec_cipher e) = ec_nonce e /\ (forall x, published pcs0 x -> seen (n_ops n) x) /\ Inv t0 hh.
Proof.
  intros Lg He Ro. pose proof (logged_turns _ _ Lg) as R. pose proof (turns_net _ _ HH HR _ R) as NR. pose proof (net_reachable_good _ _ HH HR _ NR) as NG.
  destruct (logged_line _ _ Lg) as (id & pk & L & G & T & ops & pcs & LL & En & E1 & E2).
  pose proof (ng_cts _ _ _ NG _ He) as [Ck Cn Ek].
  rewrite En in Ro. destruct (roster_line _ _ _ _ _ _ _ _ _ LL Ro) as (l1 & o & l2 & EL1 & Eh & AG).
  assert (EL : L = (l1 ++ [o]) ++ l2) by (rewrite <- app_assoc; exact EL1). assert (N1 : l1 ++ [o] <> []) by (destruct l1; discriminate).
  pose proof LL as LL'. rewrite EL in LL'. destruct (line_prefix _ _ _ _ _ _ _ _ LL' N1) as (g1 & t1 & ops0 & pcs0 & ops1 & pcs1 & L1 & Eops & Epcs).
  pose proof (AG _ _ _ _ L1) as A1. destruct (reachable_inv _ _ _ _ _ (line_reach _ _ _ _ _ _ _ L1)) as (h1 & V1 & _).
  (* the entry of the ledger *)
  rewrite EL1, map_app in E1. cbn [map] in E1. rewrite Eh in E1.
  assert (Sp : exists led0 op led1, led = led0 ++ (ec_op e, op) :: led1 /\ length led0 = length l1).
  { clear -E1. revert led E1. induction l1 as [|y l1 IH]; intros [|[a b] led] E1; cbn in E1; try discriminate.
    - injection E1 as -> _. exists [], b, led. auto.
    - injection E1 as _ E1. destruct (IH _ E1) as (led0 & op & led1 & -> & El). exists ((a, b) :: led0), op, led1. cbn. auto. }
  destruct Sp as (led0 & op & led1 & Eled & Elen).
  assert (E3 : map snd (led0 ++ [(ec_op e, op)]) = OAdd id pk :: ops0 /\ map snd led1 = ops1).
  { rewrite Eled in E2. replace (led0 ++ (ec_op e, op) :: led1) with ((led0 ++ [(ec_op e, op)]) ++ led1) in E2 by (rewrite <- app_assoc; reflexivity).
    rewrite map_app, Eops, app_comm_cons in E2. apply app_inj_1 in E2; [exact E2|].
    rewrite map_length, app_length, Elen. cbn [length]. rewrite <- (line_length _ _ _ _ _ _ _ L1), app_length. reflexivity. }
  destruct E3 as [E3 E4].
  exists id, pk, ops0, ops1, t1, T, pcs0, pcs, led0, op, led1, h1.
  split; [eapply line_reach; exact L1|]. split; [rewrite <- Eops; eapply line_reach; exact LL|]. split; [exact A1|]. split; [exact Eled|]. split; [exact E3|]. split; [exact E4|]. split; [|split; [|split; [exact Ck|split; [exact Cn|split; [|exact V1]]]]].
  - (* the root *)
    assert (S1 : g_ops g1 ⊆ n_ops n).
    { rewrite En. apply map_subseteq_spec. intros y q Y. apply (line_ops _ _ _ _ _ _ _ L1) in Y as [Y1 Y2]. apply (line_ops _ _ _ _ _ _ _ LL). rewrite EL1. split; [set_solver|exact Y2]. }
    assert (K1 : is_Some (g_ops g1 !! ec_op e)) by (exists o; apply (line_ops _ _ _ _ _ _ _ L1); split; [set_solver|exact Eh]).
    pose proof (line_topsort _ _ _ _ _ _ _ _ L1) as Ts1. rewrite Eh in Ts1.
    assert (V1g : GInv g1) by (apply reachable_ginv; eapply line_graph; exact L1).
    destruct Ek as (ro & g' & es & orig & init & t & g'' & A & V' & C & D & Ei & F & Ht & Re & Ri).
    rewrite (topsort_same_ancestry g' g1 (n_ops n) (ec_op e) V' V1g C S1 D K1), Ts1 in Ht. injection Ht as <-.
    assert (Hf : exists h0 rest, l1 ++ [o] = SignedOp h0 (init_add id pk) :: rest) by (eapply line_first; exact L1). destruct Hf as (h0 & rest & Hf).
    assert (Ei0 : n_ops n !! so_hash (SignedOp h0 (init_add id pk)) = Some (SignedOp h0 (init_add id pk))).
    { eapply lookup_weaken; [|exact S1]. apply (line_ops _ _ _ _ _ _ _ L1). rewrite Hf. split; [left|reflexivity]. }
    destruct (init_unique _ _ _ _ (id, pk) (oo_root _ (no_ops _ _ _ (ng_ok _ _ _ NG))) Ei F Ei0 eq_refl) as [-> ->].
    set (c0 := Cgka id ∅ T G false ∅ ∅ (id, pk) (SignedOp h0 (init_add id pk))).
    destruct (rebuild_line _ _ (rorder 0) c0 _ _ _ _ _ L1) as (c1 & Rb & T1 & _); [reflexivity|rewrite Hf; reflexivity|].
    pose proof (rebuild_from_replays _ _ _ _ (HR 0) Rb) as Re1. destruct (replays_det _ _ _ _ _ _ _ _ _ A (HR 0) Re Re1) as [-> _]. rewrite T1 in Ri.
    destruct Ri as (v & Ev & Hv). pose proof (inv_shape _ _ V1) as S. pose proof (sh_h _ _ S). destruct h1 as [|h1]; [lia|]. rewrite (sh_size _ _ S), root_complete in Ev.
    rewrite (inner_at_shape _ _ _ _ S) in Ev by (rewrite ?Nat.sub_diag, ?Nat.pow_0_r; lia). injection Ev as Ev. apply nkey_inner. exists v. split; [exact Ev|exact Hv].
  - intros x (h & o' & m & pc & ps & Eo & Es & Px). rewrite En in Eo. apply (line_ops _ _ _ _ _ _ _ LL) in Eo as [Eo _].
    assert (Ip : pc ∈ pcs) by (apply (line_pcs _ _ _ _ _ _ _ _ LL); eauto). destruct Px as (pc' & i & st & v & y & Hpc & Rest). apply elem_of_list_singleton in Hpc as ->. exists pc, i, st, v, y. auto.
  - intros x (pc & i & st & v & y & Hpc & Rest).
    assert (Ip : pc ∈ pcs) by (rewrite Epcs; apply elem_of_app; left; exact Hpc). apply (line_pcs _ _ _ _ _ _ _ _ LL) in Ip as (o' & m & ps & Ho & Eo).
    exists (so_hash o'), o', m, pc, ps. split; [rewrite En; apply (line_ops _ _ _ _ _ _ _ LL); auto|]. split; [exact Eo|]. exists pc, i, st, v, y. split; [left|exact Rest].
Qed.

Lemma derivable_sub K (log log' : enc_secret -> Prop) s : (forall e, log e -> log' e) -> derivable K log s -> derivable K log' s.
Proof. intros H D. induction D as [s Ks|e s p Pe D IH Ek]; [apply derivable_known, Ks|eapply derivable_open; eauto]. Qed.

Lemma other_times_lemma n led e g (K : secret_key -> Prop) led0 op led1 : logged n led -> fresh_history (map snd led) -> e ∈ n_cts n -> roster (n_ops n) (ec_op e) g ->
  led = led0 ++ (ec_op e, op) :: led1 ->
  (forall s, K s -> outdated (led0 ++ [(ec_op e, op)]) s \/ entered led1 s) -> (forall m p, g !! m = Some (pub p) -> ~ K p) ->
  closed_to K (n_ops n) e.
Proof.
  intros Lg F He Ro El HK HL. destruct (message_key _ _ _ _ Lg He Ro) as (id & pk & ops0 & ops1 & t0 & t & pcs0 & pcs & ld0 & op' & ld1 & hh & R0 & R & Ag & El' & M0 & M1 & Nk & Sn & Ck & _ & _ & _).
  assert (Q : led0 = ld0 /\ op = op' /\ led1 = ld1).
  { destruct (ledger_names _ _ Lg) as [ND _]. clear -ND El El'. subst led. revert ld0 El' ND. induction led0 as [|[a b] led0 IH]; intros [|[a' b'] ld0] E ND; cbn in *.
    - injection E as <- <-. auto.
    - injection E as <- <- ->. apply NoDup_cons in ND as [ND _]. exfalso. apply ND. rewrite map_app. cbn. set_solver.
    - injection E as -> -> E. apply NoDup_cons in ND as [ND _]. exfalso. apply ND. rewrite map_app. cbn. set_solver.
    - injection E as <- <- E. apply NoDup_cons in ND as [_ ND]. destruct (IH _ E ND) as (-> & -> & ->). auto. }
  destruct Q as (<- & <- & <-).
  assert (ES : map snd led = OAdd id pk :: ops0 ++ ops1).
  { rewrite El. replace (led0 ++ (ec_op e, op) :: led1) with ((led0 ++ [(ec_op e, op)]) ++ led1) by (rewrite <- app_assoc; reflexivity). rewrite map_app, M0, M1. reflexivity. }
  rewrite ES in F. intros k preds ref D. unfold content_decrypt. destruct (decide _) as [[E _]|]; [|reflexivity]. exfalso. rewrite Ck in E. injection E as <- _ _.
  eapply (other_times_useless id pk ops0 ops1 t0 t pcs0 pcs K g R0 R Ag F); [| |exact Nk|].
  - intros s Ks. destruct (HK s Ks) as [(i & o & Li & Su & Se)|(h & o & Ho & Se)].
    + left. rewrite M0 in Li, Su. exists i, o. auto.
    + right. exists o. split; [|exact Se]. rewrite <- M1. apply elem_of_list_fmap. exists (h, o). auto.
  - exact HL.
  - eapply derivable_sub; [exact Sn|exact D].
Qed.

Lemma outsiders_lemma n led e g (C : member_id -> Prop) (K : secret_key -> Prop) : logged n led -> fresh_history (map snd led) -> e ∈ n_cts n -> roster (n_ops n) (ec_op e) g ->
  (forall m, C m -> g !! m = None) -> (forall s, K s -> entered_for C led s) -> (forall m p, g !! m = Some (pub p) -> ~ K p) ->
  closed_to K (n_ops n) e.
Proof.
  intros Lg F He Ro HC HK HL. destruct (message_key _ _ _ _ Lg He Ro) as (id & pk & ops0 & ops1 & t0 & t & pcs0 & pcs & led0 & op & led1 & hh & R0 & R & Ag & El & M0 & M1 & Nk & Sn & Ck & _ & _ & _).
  assert (ES : map snd led = OAdd id pk :: ops0 ++ ops1).
  { rewrite El. replace (led0 ++ (ec_op e, op) :: led1) with ((led0 ++ [(ec_op e, op)]) ++ led1) by (rewrite <- app_assoc; reflexivity). rewrite map_app, M0, M1. reflexivity. }
  rewrite ES in F. intros k preds ref D. unfold content_decrypt. destruct (decide _) as [[E _]|]; [|reflexivity]. exfalso. rewrite Ck in E. injection E as <- _ _.
  eapply (absent_locked_out id pk ops0 ops1 t0 t pcs0 pcs C K g R0 R Ag F HC); [|exact HL|exact Nk|eapply derivable_sub; [exact Sn|exact D]].
  intros s Ks. destruct (HK s Ks) as (h & o & Ho & Hc & Se). exists o. split; [|auto]. rewrite <- ES. apply elem_of_list_fmap. exists (h, o). auto.
Qed.

Lemma members_lemma n led e g m p (K : secret_key -> Prop) : logged n led -> e ∈ n_cts n -> roster (n_ops n) (ec_op e) g ->
  g !! m = Some (pub p) -> K p ->
  exists k, derivable K (seen (n_ops n)) k /\ content_decrypt e (AppKey k (ec_preds e) (ec_ref e)) = Some (ct_plain (ec_cipher e)).
Proof.
  intros Lg He Ro Gm Kp. destruct (message_key _ _ _ _ Lg He Ro) as (id & pk & ops0 & ops1 & t0 & t & pcs0 & pcs & led0 & op & led1 & hh & R0 & R & Ag & El & M0 & M1 & Nk & Sn & Ck & Cn & Ns & V).
  exists (ec_pcs e). split; [|unfold content_decrypt; rewrite decide_True by auto; reflexivity].
  eapply derivable_sub; [exact Ns|]. destruct (proj1 (Ag m (pub p)) Gm) as (i & Ei). pose proof (inv_leaf_lt _ _ _ _ V Ei) as Lt. pose proof (inv_next _ _ V) as Ln.
  eapply (member_derives t0 hh pcs0 i p K V (reachable_all_published _ _ _ _ _ R0) ltac:(unfold nkey; rewrite Ei; reflexivity) Kp hh).
  rewrite anc_small by lia. exact Nk.
Qed.
End turns.
