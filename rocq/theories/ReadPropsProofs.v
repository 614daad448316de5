(** Networks whose changes of members take turns: members can read and write (C51), and the
    trees are those of the members (C52). *)
From Coq Require Import Arith Lia.
From stdpp Require Import base list gmap relations.
From Verif Require Import ResModel KeysModel KeysProofs TreeMathModel TreeMathSpec TreeMathProofs TreeModel TreeSpec TreeOps TreeView TreeProofs TreeInv TreeRun
  OpsModel OpsSpec OpsInv OpsProofs OpsPropsProofs OpsExtend OpsAlone CgkaModel CgkaSpec CgkaProofs CgkaReplay CgkaConverge CgkaSound CgkaRow NetSpec NetProofs NetKeys NetAgree NetInv
  TurnTree TurnCalls TurnRead GrowSpec CgkaGrow GrowNet GrowReceive GrowPropsProofs ReadSpec ReadTree ReadWorld ReadNet ReadMade.

Lemma gives_gives_key ops x o id pk : ops !! x = Some o -> gives ops x id pk -> gives_key (so_op o) id pk.
Proof.
  intros E (o' & E' & [(i & ps & qs & Eo)|(pc & ps & Eo & A & B)]); rewrite E in E'; injection E' as <-; rewrite Eo; cbn; [auto|].
  rewrite A, B. cbn. set_solver.
Qed.

Section net.
Context (horder : nat -> gset digest -> list digest).
Context (rorder : nat -> gset (member_id * nat) -> list (member_id * nat)).
Context (HH : forall r, some_order (horder r)) (HR : forall r, some_order (rorder r)).

(** ** Reading the root of a described tree *)
Lemma root_read ops D h d m i rk : ops_ok ops -> orderly ops -> all_well ops -> describes ops D (c_tree d) h -> closed ops D ->
  t_ids (c_tree d) !! m = Some i -> (m = c_owner d \/ m = public_id /\ t_ids (c_tree d) !! c_owner d = None) ->
  good_sks (c_sks d) -> (forall x pk, x ∈ D -> gives ops x m pk -> is_Some (c_sks d !! pk)) ->
  nkey (c_tree d) h 0 = Some rk -> exists d', pcs_key_from_tree_root d = (d', Ok rk).
Proof.
  intros OK [AT OW FK] CA Ds Cl Ei Em GS Ho Hk. destruct (describes_member ops _ _ _ _ _ Ds Cl Ei) as (x & pk & Hx & Gx & El).
  destruct (Ho _ _ Hx Gx) as [s Hs]. assert (s = pk) as -> by exact (GS _ _ Hs).
  pose proof (decrypt_tree_secret_spec _ _ _ _ _ (c_sks d) (ds_shape _ _ _ _ Ds) (describes_keyed ops OK CA AT OW FK _ _ _ Ds Cl) Ei (leafv_lt _ _ _ _ (ds_shape _ _ _ _ Ds) El) El GS Hs) as Q.
  rewrite Hk in Q. destruct Q as (s' & Q & _). unfold pcs_key_from_tree_root.
  assert (Q' : decrypt_tree_secret (c_tree d) (c_owner d) (c_sks d) = (s', Ok rk)); [|rewrite Q'; eauto].
  destruct Em as [<- |[-> N]]; [exact Q|]. rewrite <- Q. unfold decrypt_tree_secret. rewrite N, Ei. reflexivity.
Qed.

(** Reading fails with an error at worst. *)
Lemma describes_calm ops D t h m sks : ops_ok ops -> orderly ops -> all_well ops -> describes ops D t h -> closed ops D -> calm (decrypt_tree_secret t m sks).2.
Proof.
  intros OK [AT OW FK] CA Ds Cl. pose proof (ds_shape _ _ _ _ Ds) as Sh. pose proof (describes_keyed ops OK CA AT OW FK _ _ _ Ds Cl) as KY. unfold decrypt_tree_secret.
  destruct (match t_ids t !! m with Some i => Some i | None => t_ids t !! public_id end) as [i|] eqn:Ei; [|exact I].
  assert (Si : exists m', t_ids t !! m' = Some i) by (destruct (t_ids t !! m) eqn:Q; [injection Ei as <-|]; eauto). clear Ei. destruct Si as [m' Ei].
  rewrite (has_root_key_spec _ _ Sh (ky_ne _ KY)). case_bool_decide as R; [|exact I].
  apply (ds_seat _ _ _ _ Ds) in Ei as [nk El]. pose proof (leafv_lt _ _ _ _ Sh El) as Hi. rewrite (leaf_at_shape _ _ _ Sh Hi), El. cbn [l_pk]. rewrite leaf_to_tree_node.
  pose proof (decrypt_loop_calm (t_size t) t h 0 i nk [node 0 i] sks None Sh KY) as C.
  destruct (decrypt_loop _ _ _ _ _ _ _) as [s1 r1]. cbn [snd] in C.
  assert (C' : calm r1).
  { apply C; [apply inr_leaf; exact Hi|exact R|]. rewrite (sh_size _ _ Sh). pose proof (complete_size_alt h). pose proof (pow2_gt h). lia. }
  destruct r1 as [[s|]|e| |]; cbn in C'; try contradiction; exact I.
Qed.
Lemma root_calm ops D h d : ops_ok ops -> orderly ops -> all_well ops -> describes ops D (c_tree d) h -> closed ops D -> calm (pcs_key_from_tree_root d).2.
Proof.
  intros OK Od CA Ds Cl. unfold pcs_key_from_tree_root. pose proof (describes_calm ops D _ h (c_owner d) (c_sks d) OK Od CA Ds Cl) as C.
  destruct (decrypt_tree_secret (c_tree d) (c_owner d) (c_sks d)) as [s1 [k|e| |]]; cbn in C; try contradiction; [exact I|].
  destruct (negb _ && _); [|exact I]. pose proof (describes_calm ops D _ h public_id s1 OK Od CA Ds Cl) as C2.
  destruct (decrypt_tree_secret (c_tree d) public_id s1) as [s2 r2]. exact C2.
Qed.

Lemma single_list (X : gset digest) ho u : some_order ho -> X = {[ u ]} -> ho X = [u].
Proof. intros H ->. apply Permutation_singleton_r. rewrite (H _), elements_singleton. reflexivity. Qed.

Section at_net.
Context (n : network) (R : net_reachable horder rorder n) (Od : orderly (n_ops n)).
Notation ops := (n_ops n).

Lemma known_ops r c : n_reps n !! r = Some c -> forall x, x ∈ known c <-> is_Some (g_ops (c_graph c) !! x).
Proof. intros _ x. unfold known. rewrite elem_of_dom. reflexivity. Qed.

(** Every replica. *)
Lemma now_describes r c : n_reps n !! r = Some c -> exists h, describes ops (known c) (c_tree c) h /\ closed ops (known c).
Proof.
  intros E. destruct (proj2 (net_fine horder rorder HH HR _ R Od) r c E) as [[h Ds] _]. exists h. split; [exact Ds|].
  exact (known_closed horder rorder HH n r c (net_reachable_ok horder rorder HH HR _ R) E).
Qed.

(** Who is a member, to a replica. *)
Lemma graph_closed r c : n_reps n !! r = Some c -> forall p h, named (g_ops (c_graph c)) p h -> is_Some (g_ops (c_graph c) !! p).
Proof.
  intros E p h N. pose proof (net_reachable_ok horder rorder HH HR _ R) as K.
  assert (Rg : graph_reachable (c_graph c)) by (eapply cgka_graph_reachable; [apply HH|exact (no_reach _ _ _ K _ _ E)]).
  exact (gi_closed _ (reachable_ginv _ Rg) _ _ N).
Qed.
Lemma seat_known r c t h id i : n_reps n !! r = Some c -> describes ops (known c) t h -> t_ids t !! id = Some i <-> seat (g_ops (c_graph c)) (fun x => is_Some (g_ops (c_graph c) !! x)) id i.
Proof.
  intros E Ds. rewrite (ds_ids _ _ _ _ Ds). pose proof (no_sub _ _ _ (net_reachable_ok horder rorder HH HR _ R) _ _ E) as Sub.
  rewrite <- (seat_up (g_ops (c_graph c)) ops Sub (graph_closed r c E)) by auto. apply seat_ext. intros m o _ _. apply (known_ops r c E).
Qed.
Lemma member_known r c t h id : n_reps n !! r = Some c -> describes ops (known c) t h -> member (g_ops (c_graph c)) id <-> exists i, t_ids t !! id = Some i.
Proof. intros E Ds. split; intros [i Q]; exists i; eapply (seat_known r c t h id i E Ds); exact Q. Qed.

Lemma own_known r c m : n_reps n !! r = Some c -> holds_for (g_ops (c_graph c)) c m -> forall x pk, x ∈ known c -> gives ops x m pk -> is_Some (c_sks c !! pk).
Proof.
  intros E Ho x pk Hx Gx. apply (known_ops r c E) in Hx as [o Eo]. eapply (Ho _ _ _ Eo). eapply gives_gives_key; [|exact Gx].
  eapply lookup_weaken; [exact Eo|]. apply (no_sub _ _ _ (ng_ok _ _ _ (net_reachable_good horder rorder HH HR _ R)) _ _ E).
Qed.

(** The owner of a replica that takes the owner for a member has a leaf. *)
Lemma owner_leaf r c t h id : n_reps n !! r = Some c -> describes ops (known c) t h -> member (g_ops (c_graph c)) id -> exists i, t_ids t !! id = Some i.
Proof. intros E Ds. apply (member_known r c t h id E Ds). Qed.

Lemma height_le D t h : describes ops D t h -> closed ops D -> h <= size D.
Proof.
  intros Ds Cl. destruct (ds_tall _ _ _ _ Ds) as (_ & H1 & [-> |(a & o & id & pk & i & ps & qs & Ha & Ea & Eo & Hi)]).
  - destruct (ds_top _ _ _ _ Ds) as (id & i & Q & _). apply (ds_ids _ _ _ _ Ds) in Q as (a & _ & _ & _ & _ & Ha & _). assert (size D <> 0) by (intros Z; apply size_empty_inv in Z; set_solver). lia.
  - pose proof (net_well horder rorder HH HR _ R Od _ _ Ea) as W. rewrite Eo in W. destruct W as (D0 & Pa & [[_ ->]|(t0 & h0 & Ds0 & -> & _)]).
    + pose proof (pow2_gt (h - 1)). lia.
    + pose proof (ds_count _ _ _ _ Ds0) as C. pose proof (pow2_gt (h - 1)).
      assert (S1 : adds ops D0 ⊆ D ∖ {[ a ]}).
      { intros y Hy. apply elem_of_adds in Hy as [Hy _]. apply Pa in Hy. pose proof (no_ops _ _ _ (net_reachable_ok horder rorder HH HR _ R)) as OK.
        apply elem_of_difference. split; [eapply closed_bef; eauto|]. intros Z. apply elem_of_singleton in Z as ->. exact (bef_irr ops OK _ Hy). }
      apply subseteq_size in S1. rewrite size_difference in S1 by (apply singleton_subseteq_l, Ha). rewrite size_singleton in S1.
      assert (size D <> 0) by (intros Z; apply size_empty_inv in Z; set_solver). lia.
Qed.

(** *** One head, an update: its top key is the group's. *)
Lemma members_read_root r c u o w : n_reps n !! r = Some c -> g_heads (c_graph c) = {[ u ]} -> g_ops (c_graph c) !! u = Some o -> is_update (so_op o) = true ->
  (w = c_owner c \/ w = public_id /\ ~ member (g_ops (c_graph c)) (c_owner c)) -> member (g_ops (c_graph c)) w -> holds_for (g_ops (c_graph c)) c w ->
  exists c' k, pcs_key_from_tree_root c = (c', Ok k) /\ top_key (so_op o) = Some k.
Proof.
  intros E Hu Eo Up Who Ad Ho. pose proof (net_reachable_good horder rorder HH HR _ R) as NG. pose proof (ng_ok _ _ _ NG) as K. pose proof (no_ops _ _ _ K) as OK.
  pose proof (net_well horder rorder HH HR _ R Od) as CA. pose proof (no_sub _ _ _ K _ _ E) as Sub.
  assert (Hs : has_single_head (c_graph c) = true) by (unfold has_single_head; rewrite Hu, size_singleton; reflexivity).
  destruct (now_describes r c E) as (h & Ds & Cl). destruct (owner_leaf r c _ _ _ E Ds Ad) as [i Ei].
  assert (Who' : w = c_owner c \/ w = public_id /\ t_ids (c_tree c) !! c_owner c = None).
  { destruct Who as [-> |[-> Nw]]; [auto|]. right. split; [reflexivity|]. destruct (t_ids (c_tree c) !! c_owner c) as [i'|] eqn:Z; [|reflexivity]. exfalso. apply Nw. apply (member_known r c _ _ _ E Ds). eauto. }
  destruct (so_op o) as [| |id pc ps] eqn:Q; try discriminate.
  assert (Rg : graph_reachable (c_graph c)) by (eapply cgka_graph_reachable; [apply HH|exact (no_reach _ _ _ K _ _ E)]).
  destruct (settled_root ops OK CA _ _ _ u o id pc ps Ds Cl) as (v & V & Hk & Ln).
  - apply (known_ops r c E). eauto.
  - eapply lookup_weaken; eauto.
  - exact Q.
  - intros y Hy. apply (known_ops r c E) in Hy. destruct (some_head_lemma _ Rg y Hy) as (k & Hk & Rk). rewrite Hu in Hk. apply elem_of_singleton in Hk as ->.
    apply rtc_tc in Rk as [-> |Rk]; [auto|]. right. exact (before_mono (c_graph c) (all_ops ops) _ _ Sub Rk).
  - destruct (root_read ops _ _ c w i (v_pk v) OK Od CA Ds Cl Ei Who') as [c' Q'].
    + apply (lg_sks _ (ng_local _ _ _ NG _ _ E)).
    + exact (own_known r c _ E Ho).
    + exact Hk.
    + exists c', (v_pk v). split; [exact Q'|]. destruct V as (o' & id' & pc' & ps' & m & E' & Q2 & L). rewrite (lookup_weaken _ _ _ _ Eo Sub) in E'. injection E' as <-.
      rewrite Q in Q2. injection Q2 as <- <- <-. cbn [top_key].
      match goal with |- match ?x with _ => _ end = _ => assert (L2 : x = Some (m, [v])) by (rewrite last_lookup, Ln; replace (Nat.pred h) with (h - 1) by lia; exact L); rewrite L2; reflexivity end.
Qed.

(** *** Everything sealed. *)
Lemma members_read_content r c e m : n_reps n !! r = Some c -> e ∈ n_cts n -> is_Some (g_ops (c_graph c) !! ec_op e) ->
  (m = c_owner c \/ m = public_id /\ ~ member_at (g_ops (c_graph c)) (c_owner c) (ec_op e)) -> member_at (g_ops (c_graph c)) m (ec_op e) -> holds_for (g_ops (c_graph c)) c m ->
  exists c' key, decryption_key_for (rorder r) c e = (c', Ok key) /\ content_decrypt e key = Some (ct_plain (ec_cipher e)).
Proof.
  intros E He Kn Who Ad Ho. pose proof (net_reachable_good horder rorder HH HR _ R) as NG. pose proof (ng_ok _ _ _ NG) as K. pose proof (no_ops _ _ _ K) as OK.
  pose proof (net_well horder rorder HH HR _ R Od) as CA. pose proof (no_sub _ _ _ K _ _ E) as Sub. pose proof (no_reach _ _ _ K _ _ E) as Rc.
  pose proof (ng_local _ _ _ NG _ _ E) as [GT GS _]. pose proof (ng_cts _ _ _ NG _ He) as [_ _ Ek].
  assert (Rg : graph_reachable (c_graph c)) by (eapply cgka_graph_reachable; [apply HH|exact Rc]). pose proof (reachable_ginv _ Rg) as V.
  destruct (heads_describe horder rorder HH n r c [ec_op e] K Od CA E) as (es & t & g & h & D & Et & Re & Ds & Cl & HD & LF & _); [apply NoDup_singleton|discriminate|intros x Hx; apply elem_of_list_singleton in Hx as ->; exact Kn|].
  assert (Kn' : forall x, x ∈ D -> x ∈ known c) by (intros x Hx; apply HD in Hx as [Hx _]; apply (known_ops r c E), Hx).
  (* the owner has a leaf in that tree *)
  assert (At : forall id i, t_ids t !! id = Some i <-> seat (g_ops (c_graph c)) (fun x => x = ec_op e \/ came_before (g_ops (c_graph c)) x (ec_op e)) id i).
  { intros id i. rewrite (ds_ids _ _ _ _ Ds).
    rewrite <- (seat_up (g_ops (c_graph c)) ops Sub (graph_closed r c E)).
    - apply seat_ext. intros m' o _ _. rewrite HD. split.
      + intros [_ (x & Hx & B)]. apply elem_of_list_singleton in Hx as ->. apply rtc_tc in B as [-> |B]; [auto|]. right. exact B.
      + intros [-> |B]; [split; [exact Kn|]; exists (ec_op e); split; [left|apply rtc_refl]|]. split; [eapply (past_known (g_ops (c_graph c))); [exact (graph_closed r c E)|exact B]|].
        exists (ec_op e). split; [left|]. apply tc_rtc. exact B.
    - intros x [-> |B]; [exact Kn|]. eapply (past_known (g_ops (c_graph c))); [exact (graph_closed r c E)|exact B]. }
  assert (Ei : exists i, t_ids t !! m = Some i) by (destruct Ad as [i Ad]; exists i; apply At; exact Ad).
  assert (Who' : m = c_owner c \/ m = public_id /\ t_ids t !! c_owner c = None).
  { destruct Who as [-> |[-> Nw]]; [auto|]. right. split; [reflexivity|]. destruct (t_ids t !! c_owner c) as [i|] eqn:Z; [|reflexivity]. exfalso. apply Nw. exists i. apply At. exact Z. }
  destruct Ei as [i Ei].
  (* it has a root key *)
  assert (Rt : exists rk, nkey t h 0 = Some rk).
  { destruct Ek as (ro & g' & es' & orig & init & t' & g'' & A & V' & C & Dk & Ii & F & Ht & Re' & Ri).
    rewrite (topsort_same_ancestry g' (c_graph c) ops (ec_op e) V' V C Sub Dk Kn), Et in Ht. injection Ht as <-.
    destruct (init_kept _ _ c Rc) as [Ki Oi].
    destruct (init_unique _ _ _ _ _ (oo_root _ OK) Ii F (lookup_weaken _ _ _ _ Ki Sub) Oi) as [-> ->].
    destruct (replays_det _ _ _ _ _ _ _ _ _ A (HR r) Re' Re) as [-> _]. destruct Ri as (v & Q & _).
    pose proof (ds_shape _ _ _ _ Ds) as Sh. pose proof (sh_h _ _ Sh) as H1. destruct h as [|h]; [lia|]. rewrite (sh_size _ _ Sh), root_complete in Q.
    rewrite (inner_at_shape _ _ _ _ Sh) in Q by (rewrite ?Nat.sub_diag, ?Nat.pow_0_r; lia). injection Q as Q. exists (v_pk v). cbn [nkey]. rewrite Q. reflexivity. }
  destruct Rt as [rk Hk].
  (* deriving the key anew works *)
  assert (Dv : forall d, quiet c d -> good_sks (c_sks d) -> exists d' k, derive_pcs_key_for_op (rorder r) d (ec_op e) = (d', Ok k)).
  { intros d Q GSd. unfold derive_pcs_key_for_op. rewrite (q_graph _ _ Q), (proj2 (contains_some _ _) Kn), Et. cbn [negb]. unfold rebuild_pcs_key.
    assert (Rb : exists c1, rebuild_from (rorder r) d es = Ok c1 /\ c_tree c1 = t).
    { destruct Re as (c0 & c1 & E0 & E1 & <- & _). unfold rebuild_from. rewrite (q_original _ _ Q), (q_init _ _ Q), E0. cbn [rbind].
      destruct (apply_epochs_core (rorder r) (rorder r) (HR r) (HR r) es c0 (with_new_owner c0 (c_owner d) (c_sks d)) c1) as (c2 & F2 & [T _]); [split; reflexivity|exact E1|]. eauto. }
    destruct Rb as (c1 & Rb & T1). pose proof (rebuild_keeps _ _ _ _ Rb) as (S1 & _ & _ & O1 & _). rewrite Rb. cbn [rbind].
    destruct (root_read ops D h c1 m i rk OK Od CA) as [d1 Q1].
    - rewrite T1. exact Ds.
    - exact Cl.
    - rewrite T1. exact Ei.
    - rewrite T1, O1, (q_owner _ _ Q). exact Who'.
    - rewrite S1. exact GSd.
    - intros x pk Hx Gx. rewrite S1. apply (q_sks _ _ Q). exact (own_known r c m E Ho x pk (Kn' x Hx) Gx).
    - rewrite T1. exact Hk.
    - rewrite Q1. cbn [snd]. unfold last_first in *. destruct (last es) as [[|o l]|]; [contradiction|eauto|contradiction]. }
  assert (P : exists d k, pcs_key_from_hashes (rorder r) c (ec_pcs e) (ec_op e) = (d, Ok k)).
  { unfold pcs_key_from_hashes. destruct (c_pcs c !! ec_pcs e); [eauto|].
    destruct (now_describes r c E) as (h1 & Ds1 & Cl1). unfold has_pcs_key. destruct (has_root_key_ok _ _ (ds_shape _ _ _ _ Ds1)) as [b Eb]. rewrite Eb. cbn [rbind].
    destruct (b && has_single_head (c_graph c) && (size (g_add_heads (c_graph c)) <? 2)) eqn:Bb; [|apply Dv; [apply quiet_refl|exact GS]].
    apply andb_true_iff in Bb as [Bb _]. apply andb_true_iff in Bb as [-> Hs].
    pose proof (root_calm ops _ h1 c OK Od CA Ds1 Cl1) as Ca. destruct (pcs_key_from_tree_root c) as [d y] eqn:Q.
    assert (Dd : exists d' k, derive_pcs_key_for_op (rorder r) d (ec_op e) = (d', Ok k)) by (apply Dv; [eapply root_quiet; exact Q|eapply root_keeps_good; [exact GT|exact GS|exact Q]]).
    destruct y as [k|er| |]; cbn in Ca; try contradiction; [|exact Dd]. destruct (pcs_digest k =? ec_pcs e); [eauto|exact Dd]. }
  destruct P as (d & k & P). destruct (decryption_key_for (rorder r) c e) as [c' y] eqn:Q. pose proof Q as Q'. unfold decryption_key_for in Q'. rewrite P in Q'. injection Q' as _ <-.
  do 2 eexists. split; [reflexivity|]. eapply (net_decrypt_lemma horder rorder HH HR); eauto.
Qed.

(** *** Updating, with any number of heads. *)
Lemma members_update r c sk h rng : n_reps n !! r = Some c -> member (g_ops (c_graph c)) (c_owner c) -> 2 * size (g_ops (c_graph c)) <= length rng ->
  exists c' k op rng', cgka_update (horder r) (rorder r) c sk h rng = (c', Ok (k, op, rng')) /\ so_hash op = h /\ g_heads (c_graph c') = {[ h ]} /\
    op_preds (so_op op) = g_heads (c_graph c) /\ g_ops (c_graph c') = <[h := op]> (g_ops (c_graph c)) /\ top_key (so_op op) = Some k /\
    c_owner c' = c_owner c /\ gives_key (so_op op) (c_owner c) (pub sk) /\
    (holds_own (g_ops (c_graph c)) c -> holds_own (g_ops (c_graph c')) c').
Proof.
  intros E Ad Hr. pose proof (net_reachable_good horder rorder HH HR _ R) as NG. pose proof (ng_ok _ _ _ NG) as K. pose proof (no_ops _ _ _ K) as OK.
  pose proof (net_well horder rorder HH HR _ R Od) as CA. pose proof (no_sub _ _ _ K _ _ E) as Sub. pose proof (no_reach _ _ _ K _ _ E) as Rc.
  destruct (parts horder rorder n r c K E) as (_ & SR & _). destruct (replay_works horder rorder HH HR n r c K Od CA E) as [c1 Em]. pose proof (maybe_replay_graph _ _ _ _ Em) as (Gr & _ & _ & Ow).
  destruct (replayed_describes horder rorder HH HR n r c c1 K Od CA E Em) as (hh & Ds). pose proof (known_closed horder rorder HH n r c K E) as Cl.
  destruct (owner_leaf r c _ _ _ E Ds Ad) as [i Ei].
  destruct (describes_member ops _ _ _ _ _ Ds Cl Ei) as (x & p0 & Hx & Gx & El).
  unfold cgka_update. rewrite Em. unfold update_identity. rewrite Ow. assert (Ci : contains_id (c_tree c1) (c_owner c) = true) by (apply bool_decide_eq_true; eauto). rewrite Ci.
  cbn [c_tree c_sks set_sks].
  rewrite (encrypt_path_wf (c_tree c1) hh (c_owner c) i p0 (pub sk) (<[pub sk := sk]> (c_sks c1)) rng);
    [|apply Ds|eapply describes_wfk; exact Ds|exact Ei|eapply leafv_lt; [apply Ds|exact El]|exact El|apply lookup_insert].
  assert (Hh : hh <= size (g_ops (c_graph c))).
  { etransitivity; [exact (height_le _ _ _ Ds Cl)|]. unfold known. rewrite size_dom. reflexivity. }
  destruct (enc_versions_total (c_tree c1) hh 0 i (pub sk) rng) as [[vs rng'] EV]; [lia|]. rewrite EV.
  eexists _, _, _, rng'. split; [reflexivity|]. split; [reflexivity|]. cbn [c_graph set_graph set_tree set_sks insert_pcs_key c_owner so_hash so_op].
  rewrite Gr. pose proof (enc_versions_length _ _ _ _ _ _ _ _ EV) as Lv. pose proof (sh_h _ _ (ds_shape _ _ _ _ Ds)) as H1.
  split; [unfold add_local_op, add_op_and_update_heads; cbn; apply union_empty_l_L|]. split; [cbn; apply horder_set, HH|]. split; [reflexivity|].
  split. { cbn [top_key pc_path]. destruct (lookup_lt_is_Some_2 vs (hh - 1)) as [v Ev]; [lia|].
    assert (L : path_of 0 i vs !! (hh - 1) = Some (node (hh - 1) (anc i (S (hh - 1))), [v])) by (apply path_of_lookup; eauto).
    match goal with |- match ?x with _ => _ end = _ => assert (L2 : x = Some (node (hh - 1) (anc i (S (hh - 1))), [v])) end.
    { rewrite last_lookup. unfold path_of at 1. rewrite zip_with_length_r_eq by (symmetry; apply above_length). rewrite Lv. replace (Nat.pred hh) with (hh - 1) by lia. exact L. }
    rewrite L2.
    f_equal. unfold last_pk. assert (Es : vs = take (hh - 1) vs ++ [v]).
    { rewrite <- (take_drop (hh - 1) vs) at 1. f_equal. rewrite (drop_S _ _ _ Ev), drop_ge by lia. reflexivity. }
    rewrite Es, foldl_app. reflexivity. }
  split; [exact Ow|]. split; [cbn; split; [reflexivity|set_solver]|].
  intros Ho y o k Q Gk. cbn [c_owner c_sks set_graph set_tree set_sks insert_pcs_key] in *.
  rewrite Ow in Gk. pose proof (maybe_replay_keys _ _ (HH r) (HR r) c c1 Rc SR Em) as (Ks & _). apply path_keeps.
  cbn [add_local_op add_op_and_update_heads g_ops so_hash] in Q. apply lookup_insert_Some in Q as [[<- <-]|[_ Q]].
  - cbn in Gk. destruct Gk as [_ Gk]. assert (k = pub sk) as -> by set_solver +Gk. rewrite lookup_insert. eauto.
  - destruct (decide (k = pub sk)) as [-> |N]; [rewrite lookup_insert; eauto|]. rewrite lookup_insert_ne by auto. rewrite Ks. eapply Ho; eauto.
Qed.

(** *** Sealing content, with any number of heads. *)
Lemma members_seal r c ref content preds sk h rng : n_reps n !! r = Some c -> member (g_ops (c_graph c)) (c_owner c) -> holds_own (g_ops (c_graph c)) c ->
  2 * size (g_ops (c_graph c)) <= length rng ->
  exists c' s o, new_app_secret_for (horder r) (rorder r) c ref content preds sk h rng = (c', Ok (s, o)) /\ holds_own (g_ops (c_graph c')) c'.
Proof.
  intros E Ad Ho Hr. pose proof (net_reachable_good horder rorder HH HR _ R) as NG. pose proof (ng_ok _ _ _ NG) as K. pose proof (no_ops _ _ _ K) as OK.
  pose proof (net_well horder rorder HH HR _ R Od) as CA. pose proof (ng_local _ _ _ NG _ _ E) as [GT GS _]. pose proof (ng_keys _ _ _ NG _ _ E) as [KG1 KG2].
  destruct (now_describes r c E) as (h1 & Ds1 & Cl1). unfold new_app_secret_for. cbv zeta. unfold has_pcs_key. destruct (has_root_key_ok _ _ (ds_shape _ _ _ _ Ds1)) as [b Eb]. rewrite Eb. cbn [rbind].
  destruct (b && has_single_head (c_graph c) && (size (g_add_heads (c_graph c)) <? 2)) eqn:Bb.
  - apply andb_true_iff in Bb as [Bb _]. apply andb_true_iff in Bb as [-> Hs].
    destruct (owner_leaf r c _ _ (c_owner c) E Ds1 Ad) as [i1 Ei1].
    rewrite (has_root_key_spec _ _ (ds_shape _ _ _ _ Ds1)) in Eb by (intros k j Z; apply (ds_inner _ _ _ _ Ds1) in Z as [Z _]; contradiction).
    injection Eb as Eb. apply bool_decide_eq_true in Eb as [rk1 Hk1].
    destruct (root_read ops _ h1 c (c_owner c) i1 rk1 OK Od CA Ds1 Cl1 Ei1 (or_introl eq_refl) GS (own_known r c _ E Ho) Hk1) as [c1 Q]. rewrite Q.
    pose proof (root_quiet _ _ _ Q) as Qd. assert (P12 : c_pcs c1 = c_pcs c /\ c_pcs_ops c1 = c_pcs_ops c) by (apply root_graph in Q as [sks' ->]; auto). destruct P12 as [P1 P2].
    assert (Ho1 : holds_own (g_ops (c_graph c1)) c1).
    { intros x o k. rewrite (q_graph _ _ Qd), (q_owner _ _ Qd). intros A B. apply (q_sks _ _ Qd). eapply Ho; eauto. }
    destruct (c_pcs c1 !! pcs_digest rk1) as [k'|] eqn:Ck.
    + rewrite P1 in Ck. destruct (KG1 _ _ Ck) as [_ [oh Eoh]]. rewrite P2, Eoh. eauto 6.
    + destruct (horder r (g_heads (c_graph c1))) as [|hd tl] eqn:Eh.
      * exfalso. unfold has_single_head in Hs. apply Nat.eqb_eq, size_1_elem_of in Hs as [u Hs]. rewrite (q_graph _ _ Qd) in Eh.
        apply leibniz_equiv_iff in Hs. rewrite (single_list _ _ u (HH r) Hs) in Eh. discriminate.
      * cbn [c_pcs_ops insert_pcs_key]. rewrite lookup_insert. eexists _, _, _. split; [reflexivity|exact Ho1].
  - destruct (members_update r c sk h rng E Ad Hr) as (c' & k & op & rng' & Eu & _ & _ & _ & _ & _ & _ & _ & Hk). rewrite Eu.
    cbn [c_pcs_ops insert_pcs_key]. rewrite lookup_insert. eexists _, _, _. split; [reflexivity|exact (Hk Ho)].
Qed.
End at_net.

(** ** Calls keep the own secrets *)
Lemma receive_holds n r c op c' x : net_reachable horder rorder n -> n_reps n !! r = Some c -> holds_own (g_ops (c_graph c)) c ->
  (forall k, gives_key (so_op op) (c_owner c) k -> is_Some (c_sks c !! k)) ->
  merge_concurrent_operation (horder r) (rorder r) c op = (c', x) -> c_owner c' = c_owner c /\ holds_own (g_ops (c_graph c')) c'.
Proof.
  intros R E Ho Hk Q. pose proof (net_reachable_ok horder rorder HH HR _ R) as K. pose proof (no_reach _ _ _ K _ _ E) as Rc.
  assert (SR : single_root (c_graph c)) by (eapply (single_root_mono _ (all_ops (n_ops n))); [apply (no_sub _ _ _ K _ _ E)|apply (oo_root _ (no_ops _ _ _ K))]).
  assert (G : c_owner c' = c_owner c /\ c_sks c' = c_sks c /\ forall y o, g_ops (c_graph c') !! y = Some o -> g_ops (c_graph c) !! y = Some o \/ o = op).
  { assert (Ap : forall d d2, c_graph d = c_graph c -> c_owner d = c_owner c -> c_sks d = c_sks c -> apply_operation d op = Ok d2 ->
      c_owner d2 = c_owner c /\ c_sks d2 = c_sks c /\ forall y o, g_ops (c_graph d2) !! y = Some o -> g_ops (c_graph c) !! y = Some o \/ o = op).
    { intros d d2 A B C Ea. rewrite apply_operation_eq in Ea. destruct (contains_op _ _); [injection Ea as <-; rewrite A; auto|].
      apply rbind_ok in Ea as (t & _ & Ea). injection Ea as <-. split; [exact B|]. split; [exact C|]. intros y o. cbn [c_graph set_graph set_tree add_op add_op_and_update_heads g_ops]. rewrite A.
      intros Z. apply lookup_insert_Some in Z as [[_ <-]|[_ Z]]; auto. }
    assert (Ad : forall y o, g_ops (add_op (c_graph c) op (op_preds (so_op op))) !! y = Some o -> g_ops (c_graph c) !! y = Some o \/ o = op).
    { intros y o. cbn [add_op add_op_and_update_heads g_ops]. intros Z. apply lookup_insert_Some in Z as [[_ <-]|[_ Z]]; auto. }
    unfold merge_concurrent_operation in Q. destruct (contains_op _ _); [injection Q as <- _; auto|].
    destruct (contains_predecessors _ _); cbn [negb] in Q; [|injection Q as <- _; auto].
    destruct (heads_contained_in _ _); cbn [negb] in Q.
    - destruct (maybe_replay (horder r) (rorder r) c) as [c1|e| |] eqn:Em; [|injection Q as <- _; auto..].
      pose proof (maybe_replay_graph _ _ _ _ Em) as (Gr & _ & _ & Ow). pose proof (maybe_replay_keys _ _ (HH r) (HR r) c c1 Rc SR Em) as (Ks & _).
      destruct (apply_operation c1 op) as [c2|e| |] eqn:Ea; injection Q as <- _; [exact (Ap c1 c2 Gr Ow Ks Ea)|rewrite Gr; auto..].
    - destruct (c_pending c); [injection Q as <- _; auto|]. destruct (is_update _); [|injection Q as <- _; auto].
      destruct (apply_operation c op) as [c2|e| |] eqn:Ea; injection Q as <- _; [exact (Ap c c2 eq_refl eq_refl eq_refl Ea)|auto..]. }
  destruct G as (A & B & C). split; [exact A|]. intros y o k Ey Gk. rewrite A in Gk. rewrite B. destruct (C _ _ Ey) as [Z| ->]; [eapply Ho; eauto|auto].
Qed.
End net.

(** ** Checks *)
Fixpoint before_b (ops : gmap digest signed_op) (fuel : nat) (x y : digest) : bool :=
  match fuel with
  | 0 => false
  | Datatypes.S f =>
      match ops !! y with
      | Some o => existsb (fun p => (x =? p) || before_b ops f x p) (elements (op_preds (so_op o)))
      | None => false
      end
  end.
Lemma before_b_sound ops fuel : forall x y, before_b ops fuel x y = true -> came_before ops x y.
Proof.
  induction fuel as [|f IH]; intros x y; [discriminate|]. cbn [before_b]. destruct (ops !! y) as [o|] eqn:E; [|discriminate].
  rewrite existsb_exists. intros (p & Hp & Q). apply elem_of_list_In, elem_of_elements in Hp. assert (N : named ops p y) by (exists o; auto).
  apply orb_true_iff in Q as [Q|Q]; [apply Nat.eqb_eq in Q as ->; apply tc_once, N|]. eapply tc_r; [apply IH, Q|exact N].
Qed.
Definition in_order_b (ops : gmap digest signed_op) (x y : digest) : bool :=
  (x =? y) || before_b ops (size ops) x y || before_b ops (size ops) y x.
Lemma in_order_b_sound ops x y : in_order_b ops x y = true -> in_order ops x y.
Proof.
  unfold in_order_b, in_order. rewrite !orb_true_iff, Nat.eqb_eq. intros [[-> |Q]|Q]; [auto|apply before_b_sound in Q; auto..].
Qed.
Definition updates_id (o : signed_op) : option member_id := match so_op o with CUpdate id _ _ => Some id | _ => None end.
Definition turn_b (ops : gmap digest signed_op) : bool :=
  let l := map_to_list ops in forallb (fun a => is_update (so_op a.2) || forallb (fun x => in_order_b ops x.1 a.1) l) l.
Definition one_b (ops : gmap digest signed_op) : bool :=
  let l := map_to_list ops in
  forallb (fun x => forallb (fun y => match updates_id x.2, updates_id y.2 with Some a, Some b => negb (a =? b) || in_order_b ops x.1 y.1 | _, _ => true end) l) l.
Definition fresh_b (ops : gmap digest signed_op) : bool :=
  let l := map_to_list ops in
  forallb (fun x => forallb (fun y => (x.1 =? y.1) || forallb (fun k => negb (existsb (Nat.eqb k) (op_keys (so_op y.2)))) (inner_keys (so_op x.2))) l) l.
Lemma in_ops (ops : gmap digest signed_op) h o : ops !! h = Some o -> List.In (h, o) (map_to_list ops).
Proof. intros E. apply elem_of_list_In, elem_of_map_to_list, E. Qed.
Lemma turn_b_sound ops : turn_b ops = true -> changes_in_turn ops.
Proof.
  unfold turn_b. rewrite forallb_forall. intros B a o x E A [o' E']. specialize (B _ (in_ops _ _ _ E)). cbn in B. rewrite A in B. cbn in B.
  rewrite forallb_forall in B. specialize (B _ (in_ops _ _ _ E')). apply in_order_b_sound, B.
Qed.
Lemma one_b_sound ops : one_b ops = true -> one_writer ops.
Proof.
  unfold one_b. rewrite forallb_forall. intros B x y o o' id pc pc' ps ps' E E' Eo Eo'. specialize (B _ (in_ops _ _ _ E)). rewrite forallb_forall in B. specialize (B _ (in_ops _ _ _ E')).
  cbn in B. unfold updates_id in B. rewrite Eo, Eo', Nat.eqb_refl in B. apply in_order_b_sound, B.
Qed.
Lemma fresh_b_sound ops : fresh_b ops = true -> fresh_keys ops.
Proof.
  unfold fresh_b. rewrite forallb_forall. intros B x y o o' k E E' Hk Hk'. specialize (B _ (in_ops _ _ _ E)). rewrite forallb_forall in B. specialize (B _ (in_ops _ _ _ E')).
  cbn in B. apply orb_true_iff in B as [B|B]; [apply Nat.eqb_eq, B|]. exfalso. rewrite forallb_forall in B. apply elem_of_list_In in Hk. specialize (B _ Hk).
  apply negb_true_iff in B. assert (Z : existsb (Nat.eqb k) (op_keys (so_op o')) = true) by (apply existsb_exists; exists k; split; [apply elem_of_list_In, Hk'|apply Nat.eqb_refl]). congruence.
Qed.
Definition orderly_b (ops : gmap digest signed_op) : bool := turn_b ops && one_b ops && fresh_b ops.
Lemma orderly_b_sound ops : orderly_b ops = true -> orderly ops.
Proof. unfold orderly_b. rewrite !andb_true_iff. intros [[A B] C]. split; [apply turn_b_sound, A|apply one_b_sound, B|apply fresh_b_sound, C]. Qed.
Definition given_keys (op : cgka_op) (id : member_id) : list share_key :=
  match op with
  | CAdd id' pk _ _ _ => if id' =? id then [pk] else []
  | CUpdate _ pc _ => if pc_leaf_id pc =? id then nk_keys (pc_leaf_pk pc) else []
  | CRemove _ _ _ _ => []
  end.
Lemma given_keys_spec op id k : gives_key op id k -> k ∈ given_keys op id.
Proof. destruct op; cbn; [|tauto|]; intros [-> H]; rewrite Nat.eqb_refl; [subst; left|exact H]. Qed.
Definition holds_b (ops : gmap digest signed_op) (c : cgka) : bool :=
  forallb (fun x => forallb (fun k => match c_sks c !! k with Some _ => true | None => false end) (given_keys (so_op x.2) (c_owner c))) (map_to_list ops).
Lemma holds_b_sound ops c : holds_b ops c = true -> holds_own ops c.
Proof.
  unfold holds_b. rewrite forallb_forall. intros B x o k E G. specialize (B _ (in_ops _ _ _ E)). rewrite forallb_forall in B. apply given_keys_spec, elem_of_list_In in G.
  specialize (B _ G). destruct (c_sks c !! k); [eauto|discriminate].
Qed.
Definition removes_id (o : signed_op) (id : member_id) : bool := match so_op o with CRemove id' _ _ _ => id' =? id | _ => false end.
Definition seat_b (ops : gmap digest signed_op) (P : digest -> bool) (id : member_id) : bool :=
  let l := map_to_list ops in
  existsb (fun x => match GrowPropsProofs.adds_id x.2 with
    | Some id' => (id' =? id) && P x.1 && forallb (fun y => negb (P y.1 && removes_id y.2 id) || before_b ops (size ops) y.1 x.1) l
    | None => false
    end) l.
Lemma seat_b_sound ops P (Q : digest -> Prop) id : (forall x, is_Some (ops !! x) -> P x = true <-> Q x) -> seat_b ops P id = true -> exists i, seat ops Q id i.
Proof.
  intros PQ. unfold seat_b. rewrite existsb_exists. intros ([x o] & Hx & B). apply elem_of_list_In, elem_of_map_to_list in Hx. unfold GrowPropsProofs.adds_id in B. cbn in B.
  destruct (so_op o) as [id' pk i ps qs| |] eqn:Eo; try discriminate. apply andb_true_iff in B as [B C]. apply andb_true_iff in B as [A B]. apply Nat.eqb_eq in A as ->.
  exists i, x, o, pk, ps, qs. split; [apply PQ; eauto|]. split; [exact Hx|]. split; [exact Eo|]. intros r o' j ks ps' Hr Er Q'.
  rewrite forallb_forall in C. specialize (C _ (in_ops _ _ _ Er)). cbn in C. rewrite (proj2 (PQ r (ex_intro _ _ Er)) Hr) in C. unfold removes_id in C. rewrite Q', Nat.eqb_refl in C. cbn in C.
  eapply before_b_sound, C.
Qed.
Definition member_b (ops : gmap digest signed_op) (id : member_id) : bool := seat_b ops (fun _ => true) id.
Lemma member_b_sound ops id : member_b ops id = true -> member ops id.
Proof. apply seat_b_sound. intros x H. tauto. Qed.
(** [h] came before all that remove [id] after its addition. *)
Definition member_at_b (ops : gmap digest signed_op) (id : member_id) (h : digest) : bool :=
  let l := map_to_list ops in
  existsb (fun x => match GrowPropsProofs.adds_id x.2 with
    | Some id' => (id' =? id) && ((x.1 =? h) || before_b ops (size ops) x.1 h) &&
        forallb (fun y => negb (removes_id y.2 id) || before_b ops (size ops) y.1 x.1 || before_b ops (size ops) h y.1) l
    | None => false
    end) l.
Lemma member_at_b_sound ops id h : (forall x, ~ came_before ops x x) -> member_at_b ops id h = true -> member_at ops id h.
Proof.
  intros Irr. unfold member_at_b. rewrite existsb_exists. intros ([x o] & Hx & B). apply elem_of_list_In, elem_of_map_to_list in Hx. unfold GrowPropsProofs.adds_id in B. cbn in B.
  destruct (so_op o) as [id' pk i ps qs| |] eqn:Eo; try discriminate. apply andb_true_iff in B as [B C]. apply andb_true_iff in B as [A B]. apply Nat.eqb_eq in A as ->.
  exists i, x, o, pk, ps, qs. split; [apply orb_true_iff in B as [B|B]; [left; apply Nat.eqb_eq, B|right; eapply before_b_sound, B]|]. split; [exact Hx|]. split; [exact Eo|]. intros r o' j ks ps' Hr Er Q'.
  rewrite forallb_forall in C. specialize (C _ (in_ops _ _ _ Er)). cbn in C. unfold removes_id in C. rewrite Q', Nat.eqb_refl in C. cbn in C.
  apply orb_true_iff in C as [C|C]; [eapply before_b_sound, C|]. exfalso. apply before_b_sound in C. destruct Hr as [-> |Hr]; [exact (Irr _ C)|]. apply (Irr h). eapply tc_transitive; eauto.
Qed.
Definition never_added_b (ops : gmap digest signed_op) (id : member_id) : bool :=
  forallb (fun x => match GrowPropsProofs.adds_id x.2 with Some i => negb (i =? id) | None => true end) (map_to_list ops).
Lemma never_added ops P id : never_added_b ops id = true -> ~ exists i, seat ops P id i.
Proof.
  unfold never_added_b. rewrite forallb_forall. intros B (i & a & o & pk & ps & qs & _ & Ea & Eo & _). specialize (B _ (in_ops _ _ _ Ea)). cbn in B. unfold GrowPropsProofs.adds_id in B.
  rewrite Eo, Nat.eqb_refl in B. discriminate.
Qed.
