(** Lemmas behind the theorems of [ShutProps]. *)
From Coq Require Import Arith Lia.
From stdpp Require Import base list gmap relations.
From Verif Require Import ResModel KeysModel TreeModel TreeMathModel TreeMathSpec TreeMathProofs TreeSpec TreeOps TreeView TreeProofs TreeInv
  SecrecySpec SecrecyOpen OpsModel OpsSpec OpsInv OpsProofs OpsEpochs OpsPropsProofs OpsExtend CgkaModel CgkaSpec CgkaProofs CgkaReplay CgkaConverge CgkaSound
  NetSpec NetProofs NetKeys NetAgree NetInv GrowSpec GrowNet ReadSpec TurnSecretSpec ReadTree ReadWorld ReadNet ReadMade ReadPropsProofs ShutSpec ShutProofs.

Lemma root_known g h o : GInv g -> g_ops g !! h = Some o -> exists r ro, g_ops g !! r = Some ro /\ op_preds (so_op ro) = ∅.
Proof.
  intros V. destruct (gi_rank _ V) as [rank Hr]. revert o. induction (well_founded_ltof _ rank h) as [h _ IH]. intros o E.
  destruct (set_choose_or_empty (op_preds (so_op o))) as [[p Hp]|Em]; [|exists h, o; split; [exact E|apply leibniz_equiv, Em]].
  assert (P : pred_of g p h) by (exists o; auto). destruct (gi_closed _ V _ _ P) as [op Ep]. exact (IH p (Hr _ _ P) op Ep).
Qed.

Section net.
Context (horder : nat -> gset digest -> list digest).
Context (rorder : nat -> gset (member_id * nat) -> list (member_id * nat)).
Context (HH : forall r, some_order (horder r)) (HR : forall r, some_order (rorder r)).
Section at_net.
Context (n : network) (R : net_reachable horder rorder n) (Od : orderly (n_ops n)).
Notation ops := (n_ops n).

Lemma net_world : ops_ok ops /\ (forall x o, ops !! x = Some o -> well_made ops x (so_op o)) /\ changes_in_turn ops /\ one_writer ops /\ fresh_keys ops.
Proof.
  pose proof (net_reachable_good horder rorder HH HR _ R) as NG. split; [apply (no_ops _ _ _ (ng_ok _ _ _ NG))|]. split; [exact (net_well horder rorder HH HR _ R Od)|]. destruct Od. auto.
Qed.

Lemma epoch_described h k : epoch_key ops h k ->
  exists D t hh, describes ops D t hh /\ closed ops D /\ (forall y, y ∈ D <-> by_then ops h y) /\ nkey t hh 0 = Some k.
Proof.
  intros (ro & g & es & orig & init & t & g' & A & V & Sub & Kh & Ei & Eo & Et & (c0 & c1 & E0 & E1 & <- & _) & Ri).
  destruct net_world as (OK & CA & AT & OW & FK).
  assert (SR : single_root g) by (eapply (single_root_mono _ (all_ops ops)); [exact Sub|apply (oo_root _ OK)]).
  assert (U : unordered_preds g) by (eapply (unordered_mono _ (all_ops ops)); [exact Sub|apply (oo_unordered _ OK)]).
  destruct (topsort_for_heads_spec g [h] V SR) as (es' & Et' & GR); [apply NoDup_singleton|discriminate|intros x Hx; apply elem_of_list_singleton in Hx as ->; exact Kh|].
  rewrite Et in Et'. injection Et' as <-.
  assert (Ig : g_ops g !! so_hash init = Some init).
  { destruct Kh as [o Eh]. destruct (root_known g h o V Eh) as (r & ro' & Er & Pr). assert (r = so_hash init) as ->; [|rewrite (lookup_weaken _ _ _ _ Er Sub) in Ei; injection Ei as ->; exact Er].
    eapply (oo_root _ OK); [exact (lookup_weaken _ _ _ _ Er Sub)|exact Ei|exact Pr|rewrite Eo; reflexivity]. }
  destruct (replay_described ops OK CA AT OW FK ro g V U SR Sub [h] es orig.1 orig.2 init c0) as (c2 & E2 & [[hh Ds] Cl _ _ _]);
    [apply NoDup_singleton|discriminate|intros x Hx; apply elem_of_list_singleton in Hx as ->; exact Kh|exact Et|exact GR|exact Ig|exact Eo|exact E0|].
  rewrite E1 in E2. injection E2 as <-. exists (done_set (concat es)), (c_tree c1), hh. split; [exact Ds|]. split; [exact Cl|]. split.
  - intros y. rewrite elem_of_done. split.
    + intros (o & Ho & <-). apply (gre_complete _ _ _ GR) in Ho as [Ho (x & Hx & B)]. apply elem_of_list_singleton in Hx as ->. apply rtc_tc in B as [-> |B]; [left; reflexivity|right].
      assert (One : forall a b, pred_of g a b -> named ops a b) by (intros a b (ob & Eb & Hb); exists ob; split; [eapply lookup_weaken; eauto|exact Hb]).
      clear -B One. induction B as [a b Q|a b c Q _ IH]; [apply tc_once; auto|eapply tc_l; [apply One; exact Q|exact IH]].
    + intros By. assert (Q : exists o, g_ops g !! y = Some o /\ rtc (pred_of g) y h).
      { destruct By as [-> |B]; [destruct Kh as [o Eh]; exists o; split; [exact Eh|apply rtc_refl]|].
        destruct (before_down g (all_ops ops) V Sub y h B Kh) as [B' [o Ey]]. exists o. split; [exact Ey|]. apply tc_rtc, B'. }
      destruct Q as (o & Ey & B). pose proof (gi_hash _ V _ _ Ey) as Eh. exists o. split; [|exact Eh]. apply (gre_complete _ _ _ GR). rewrite Eh. split; [exact Ey|]. exists h. split; [left|exact B].
  - destruct Ri as (v & Q & Hk). pose proof (ds_shape _ _ _ _ Ds) as Sh. pose proof (sh_h _ _ Sh) as H1. destruct hh as [|hh]; [lia|]. rewrite (sh_size _ _ Sh), root_complete in Q.
    rewrite (inner_at_shape _ _ _ _ Sh) in Q by (rewrite ?Nat.sub_diag, ?Nat.pow_0_r; lia). injection Q as Q. cbn [nkey]. rewrite Q. f_equal. tauto.
Qed.

Lemma message_shut e (K : secret_key -> Prop) : fresh_secrets ops -> e ∈ n_cts n ->
  (forall s x o, K s -> ops !! x = Some o -> s ∈ secrets (so_op o) -> ~ in_force ops (ec_op e) x) -> closed_to K ops e.
Proof.
  intros FS He HK. pose proof (net_reachable_good horder rorder HH HR _ R) as NG. destruct net_world as (OK & CA & AT & OW & FK).
  pose proof (ng_cts _ _ _ NG _ He) as [Ck _ Ek]. destruct (epoch_described _ _ Ek) as (D & t & hh & Ds & Cl & HD & Nk).
  intros k preds ref Dv. unfold content_decrypt. destruct (decide _) as [[E _]|]; [|reflexivity]. exfalso. rewrite Ck in E. injection E as <- _ _.
  eapply (kept_shut ops OK CA AT OW FK FS D t hh K Ds Cl); [|exact Dv|left; eauto].
  intros s x o Ks Ex Hs [Hx F]. apply (HK s x o Ks Ex Hs). split; [apply HD, Hx|]. intros y o1 o' Hy. apply F, HD, Hy.
Qed.
Lemma update_described u o k : ops !! u = Some o -> is_update (so_op o) = true -> top_key (so_op o) = Some k ->
  exists D t hh, describes ops D t hh /\ closed ops D /\ (forall y, y ∈ D <-> by_then ops u y) /\ nkey t hh 0 = Some k.
Proof.
  intros E Up Tk. destruct net_world as (OK & CA & AT & OW & FK). destruct (so_op o) as [| |id pc ps] eqn:Eo; try discriminate.
  destruct (update_inv ops CA _ _ _ _ _ E Eo) as (D0 & t0 & h0 & i & p0 & pk & vs & M & Ep). subst pc.
  destruct (describes_made ops OK CA AT OW FK _ _ _ _ _ _ _ _ _ _ _ E Eo M) as [_ Ds]. pose proof M as (rng & rng' & P & _).
  assert (HD : forall y, y ∈ D0 ∪ {[ u ]} <-> by_then ops u y).
  { intros y. rewrite elem_of_union, elem_of_singleton, (P y). unfold by_then. tauto. }
  assert (Cl : closed ops (D0 ∪ {[ u ]})).
  { split.
    - intros x Hx. apply HD in Hx as [-> |Hx]; [eauto|]. apply (bef_known ops OK) in Hx. tauto.
    - intros x p Hx Np. apply HD. apply HD in Hx as [-> |Hx]; right; [apply tc_once; exact Np|eapply tc_l; eauto]. }
  exists (D0 ∪ {[ u ]}), (upd_tree t0 id pk i vs), h0. split; [exact Ds|]. split; [exact Cl|]. split; [exact HD|].
  destruct (settled_root ops OK CA _ _ _ u o id (the_path id t0 h0 i p0 pk vs) ps Ds Cl) as (v & (o' & id' & pc' & ps' & m & E' & Eo' & L) & Hk & Ln); [apply HD; left; reflexivity|exact E|exact Eo|intros y Hy; apply HD, Hy|].
  rewrite Hk. rewrite E in E'. injection E' as <-. rewrite Eo in Eo'. injection Eo' as <- <- <-. rewrite <- Tk. cbn [top_key].
  assert (La : last (pc_path (the_path id t0 h0 i p0 pk vs)) = Some (m, [v])) by (rewrite last_lookup, Ln; replace (pred h0) with (h0 - 1) by lia; exact L).
  match goal with |- _ = match ?l with _ => _ end => replace l with (Some (m, [v])) by (symmetry; exact La) end. reflexivity.
Qed.
Lemma update_shut u o k (K : secret_key -> Prop) : fresh_secrets ops -> ops !! u = Some o -> is_update (so_op o) = true -> top_key (so_op o) = Some k ->
  (forall s x o, K s -> ops !! x = Some o -> s ∈ secrets (so_op o) -> ~ in_force ops u x) -> ~ derivable K (seen ops) k.
Proof.
  intros FS E Up Tk HK Dv. destruct net_world as (OK & CA & AT & OW & FK). destruct (update_described u o k E Up Tk) as (D & t & hh & Ds & Cl & HD & Nk).
  eapply (kept_shut ops OK CA AT OW FK FS D t hh K Ds Cl); [|exact Dv|left; eauto].
  intros s x o' Ks Ex Hs [Hx F]. apply (HK s x o' Ks Ex Hs). split; [apply HD, Hx|]. intros y o1 o2 Hy. apply F, HD, Hy.
Qed.
(** Secrets come with no removal. *)
Lemma secret_not_removal op s : s ∈ secrets op -> forall j ks ps, op <> CRemove (about op) j ks ps.
Proof. destruct op; cbn; intros Hs j ks ps Q; [discriminate|inversion Hs|discriminate]. Qed.
Lemma outsiders_shut e (C : member_id -> Prop) (K : secret_key -> Prop) : fresh_secrets ops -> e ∈ n_cts n ->
  (forall m, C m -> ~ member_at ops m (ec_op e)) -> (forall s x o, K s -> ops !! x = Some o -> s ∈ secrets (so_op o) -> C (about (so_op o))) -> closed_to K ops e.
Proof.
  intros FS He HC HK. destruct net_world as (OK & CA & AT & OW & FK). pose proof (net_reachable_good horder rorder HH HR _ R) as NG. pose proof (ng_cts _ _ _ NG _ He) as [_ _ Ek].
  apply (message_shut e K FS He). intros s x o Ks Ex Hs F. apply (HC _ (HK s x o Ks Ex Hs)). eapply (force_member ops CA AT); [exact F|exact Ex| |eapply secret_not_removal; exact Hs].
  destruct Ek as (ro & g & es & orig & init & t & g' & A & V & Sub & [oh Kh] & _). exists oh. eapply lookup_weaken; eauto.
Qed.

(** The leaf of a member is that of the operation in force. *)
Lemma force_leaf D t hh h x o m p : describes ops D t hh -> closed ops D -> (forall y, y ∈ D <-> by_then ops h y) -> in_force ops h x -> ops !! x = Some o -> gives ops x m p ->
  exists i, nkey t 0 i = Some p /\ i < 2 ^ hh.
Proof.
  intros Ds Cl HD F Ex G. destruct net_world as (OK & CA & AT & OW & FK).
  assert (Ab : forall z oz q, ops !! z = Some oz -> gives ops z m q -> about (so_op oz) = m /\ forall j ks ps, so_op oz <> CRemove (about (so_op oz)) j ks ps).
  { intros z oz q Ez (o' & E' & G'). rewrite Ez in E'. injection E' as <-. destruct G' as [(i & ps & qs & ->)|(pc & ps & -> & _)]; (split; [reflexivity|discriminate]). }
  destruct (Ab _ _ _ Ex G) as [Am Nr]. assert (Kh : is_Some (ops !! h)) by (apply (proj1 Cl), HD; left; reflexivity).
  destruct (force_member ops CA AT h x o F Ex Kh Nr) as [i St]. rewrite Am in St.
  assert (Ei : t_ids t !! m = Some i) by (apply (ds_ids _ _ _ _ Ds); eapply seat_ext; [|exact St]; intros z oz _ _; apply HD).
  exists i. split; [|eapply seat_index; [exact Ds|exact Ei]]. apply (ds_seat _ _ _ _ Ds) in Ei as [nk El]. pose proof El as Q. apply (ds_leaf _ _ _ _ Ds) in Q as (z & q & L & Gz & ->).
  pose proof Gz as (oz & Ez & _). destruct (Ab _ _ _ Ez Gz) as [Az Nz].
  assert (z = x) as ->.
  { assert (Io : in_order ops x z).
    { destruct (is_update (so_op o)) eqn:Uo; [|destruct (AT x o z Ex Uo) as [Q|[Q|Q]]; [eauto|left; congruence|right; right; exact Q|right; left; exact Q]].
      destruct (is_update (so_op oz)) eqn:Uz; [|destruct (AT z oz x Ez Uz) as [Q|[Q|Q]]; [eauto|left; congruence|right; left; exact Q|right; right; exact Q]].
      destruct (so_op o) as [| |id1 pc1 ps1] eqn:Eo; try discriminate. destruct (so_op oz) as [| |id2 pc2 ps2] eqn:Eoz; try discriminate. cbn in Am, Az. subst id1 id2. eapply OW; eauto. }
    destruct Io as [-> |[B|B]]; [reflexivity| |]; exfalso.
    - apply (proj2 F z o oz); [apply HD, L|exact Ex|exact Ez|congruence|exact B].
    - eapply (live_force ops OK CA AT D 0 i z oz x o Cl L Ez Nz); [apply HD, F|exact Ex|congruence|exact B]. }
  unfold nkey. rewrite El. cbn. f_equal. destruct G as (o1 & E1 & G), Gz as (o2 & E2 & Gz). rewrite E1 in E2. injection E2 as <-.
  destruct G as [(i1 & ps1 & qs1 & G)|(pc1 & ps1 & G & _ & G')], Gz as [(i2 & ps2 & qs2 & Gz)|(pc2 & ps2 & Gz & _ & Gz')]; rewrite G in Gz; try discriminate; [congruence|].
  injection Gz as <- _. congruence.
Qed.
Lemma message_opens e x o m p (K : secret_key -> Prop) : e ∈ n_cts n -> in_force ops (ec_op e) x -> ops !! x = Some o -> gives_key (so_op o) m (pub p) -> K p ->
  exists k, derivable K (seen ops) k /\ content_decrypt e (AppKey k (ec_preds e) (ec_ref e)) = Some (ct_plain (ec_cipher e)).
Proof.
  intros He F Ex G Kp. pose proof (net_reachable_good horder rorder HH HR _ R) as NG. destruct net_world as (OK & CA & AT & OW & FK).
  pose proof (ng_cts _ _ _ NG _ He) as [Ck Cn Ek]. destruct (epoch_described _ _ Ek) as (D & t & hh & Ds & Cl & HD & Nk).
  assert (G' : gives ops x m p).
  { exists o. split; [exact Ex|]. pose proof (CA _ _ Ex) as W. destruct (so_op o) as [id pk i ps qs|id i ks ps|id pc ps] eqn:Eo; cbn in G; [|contradiction|].
    - destruct G as [-> ->]. left. eauto.
    - right. destruct W as (D1 & t1 & h1 & i1 & p0 & pk & vs & rng & rng' & _ & _ & _ & _ & _ & ->). cbn in G. destruct G as [-> G]. apply elem_of_list_singleton in G. unfold pub in G. subst pk.
      do 2 eexists. split; [reflexivity|]. split; reflexivity. }
  destruct (force_leaf D t hh (ec_op e) x o m p Ds Cl HD F Ex G') as (i & Ni & Li).
  exists (ec_pcs e). split; [|unfold content_decrypt; rewrite decide_True by auto; reflexivity].
  eapply (member_opens ops OK CA AT OW FK D t hh i p K Ds Cl Ni Kp hh). rewrite anc_root by exact Li. exact Nk.
Qed.
End at_net.
End net.

(** ** Checks *)
Definition elem_b (l : list nat) (x : nat) : bool := existsb (Nat.eqb x) l.
Lemma elem_b_spec l x : elem_b l x = true <-> x ∈ l.
Proof.
  unfold elem_b. rewrite existsb_exists. split.
  - intros (y & Hy & E). apply Nat.eqb_eq in E as ->. apply elem_of_list_In, Hy.
  - intros H. exists x. split; [apply elem_of_list_In, H|apply Nat.eqb_refl].
Qed.
Definition nodup_b (l : list nat) : bool := bool_decide (NoDup l).
Definition fresh_secrets_b (ops : gmap digest signed_op) : bool :=
  let l := map_to_list ops in
  forallb (fun x => nodup_b (secrets (so_op x.2)) &&
    forallb (fun y => (x.1 =? y.1) || forallb (fun k => negb (elem_b (secrets (so_op y.2)) k)) (inner_keys (so_op x.2) ++ thrown_keys (so_op x.2))) l) l.
Lemma fresh_secrets_b_sound ops : fresh_secrets_b ops = true -> fresh_secrets ops.
Proof.
  unfold fresh_secrets_b. rewrite forallb_forall. intros B. split.
  - intros x o E. specialize (B _ (in_ops _ _ _ E)). apply andb_true_iff in B as [B _]. apply bool_decide_eq_true in B. exact B.
  - intros x y o o' k E E' Hk Hk'. specialize (B _ (in_ops _ _ _ E)). apply andb_true_iff in B as [_ B]. rewrite forallb_forall in B. specialize (B _ (in_ops _ _ _ E')). cbn in B.
    apply orb_true_iff in B as [B|B]; [apply Nat.eqb_eq, B|]. exfalso. rewrite forallb_forall in B. apply elem_of_list_In in Hk. specialize (B _ Hk). apply negb_true_iff in B.
    apply elem_b_spec in Hk'. congruence.
Qed.
(** Those before an operation, all of them. *)
Definition before_list (ops : gmap digest signed_op) (h : digest) : list digest := List.filter (fun x => before_b ops (size ops) x h) (map fst (map_to_list ops)).
Definition covers_b (ops : gmap digest signed_op) (l : list digest) (h : digest) : bool :=
  forallb (fun y => match ops !! y with Some o => forallb (elem_b l) (elements (op_preds (so_op o))) | None => true end) (h :: l).
Lemma covers_b_sound ops l h : covers_b ops l h = true -> forall x, came_before ops x h -> x ∈ l.
Proof.
  unfold covers_b. rewrite forallb_forall. intros B x Q.
  assert (One : forall x y, named ops x y -> y = h \/ y ∈ l -> x ∈ l).
  { intros a b (o & E & Ha) Hb. assert (Hb' : List.In b (h :: l)) by (apply elem_of_list_In, elem_of_cons; exact Hb). specialize (B _ Hb'). rewrite E in B. rewrite forallb_forall in B.
    apply elem_b_spec, B, elem_of_list_In, elem_of_elements, Ha. }
  remember h as h' eqn:Eh in Q. induction Q as [a b N|a b c N _ IH]; [eapply One; [exact N|auto]|]. eapply One; [exact N|right; auto].
Qed.
Definition not_then_b (ops : gmap digest signed_op) (h x : digest) : bool :=
  covers_b ops (before_list ops h) h && negb (x =? h) && negb (elem_b (before_list ops h) x).
Lemma not_then_b_sound ops h x : not_then_b ops h x = true -> ~ by_then ops h x.
Proof.
  unfold not_then_b. rewrite !andb_true_iff, !negb_true_iff, Nat.eqb_neq. intros [[A B] C] [Q|Q]; [contradiction|]. apply (covers_b_sound _ _ _ A) in Q. apply elem_b_spec in Q. congruence.
Qed.
Definition then_b (ops : gmap digest signed_op) (h x : digest) : bool := (x =? h) || before_b ops (size ops) x h.
Lemma then_b_sound ops h x : then_b ops h x = true -> by_then ops h x.
Proof. unfold then_b, by_then. rewrite orb_true_iff, Nat.eqb_eq. intros [Q|Q]; [auto|right; eapply before_b_sound; exact Q]. Qed.
Definition out_of_force_b (ops : gmap digest signed_op) (h : digest) (x : digest * signed_op) : bool :=
  not_then_b ops h x.1 ||
  existsb (fun y => then_b ops h y.1 && (about (so_op y.2) =? about (so_op x.2)) && before_b ops (size ops) x.1 y.1) (map_to_list ops).
Lemma out_of_force_b_sound ops h x o : ops !! x = Some o -> out_of_force_b ops h (x, o) = true -> ~ in_force ops h x.
Proof.
  unfold out_of_force_b. cbn [fst snd]. rewrite orb_true_iff, existsb_exists. intros E [Q|([y o'] & Hy & Q)] [B F]; [exact (not_then_b_sound _ _ _ Q B)|].
  apply elem_of_list_In, elem_of_map_to_list in Hy. cbn in Q. rewrite !andb_true_iff, Nat.eqb_eq in Q. destruct Q as [[Q1 Q2] Q3].
  apply (F y o o'); [eapply then_b_sound; exact Q1|exact E|exact Hy|exact Q2|eapply before_b_sound; exact Q3].
Qed.
Definition in_force_b (ops : gmap digest signed_op) (h x : digest) : bool :=
  then_b ops h x &&
  forallb (fun y => covers_b ops (before_list ops y.1) y.1 && (not_then_b ops h y.1 || negb (elem_b (before_list ops y.1) x) ||
    match ops !! x with Some o => negb (about (so_op y.2) =? about (so_op o)) | None => true end)) (map_to_list ops).
Lemma in_force_b_sound ops h x : in_force_b ops h x = true -> in_force ops h x.
Proof.
  unfold in_force_b. rewrite andb_true_iff, forallb_forall. intros [A B]. split; [apply then_b_sound, A|]. intros y o o' By E Ey Ab Q. specialize (B _ (in_ops _ _ _ Ey)). cbn in B.
  apply andb_true_iff in B as [B1 B2]. apply (covers_b_sound _ _ _ B1), elem_b_spec in Q. rewrite Q, E in B2. cbn in B2. rewrite orb_false_r in B2.
  apply orb_true_iff in B2 as [B2|B2]; [exact (not_then_b_sound _ _ _ B2 By)|]. apply negb_true_iff, Nat.eqb_neq in B2. contradiction.
Qed.
Definition shut_b (ops : gmap digest signed_op) (h : digest) (l : list secret_key) : bool :=
  forallb (fun x => forallb (fun s => negb (elem_b (secrets (so_op x.2)) s)) l || out_of_force_b ops h x) (map_to_list ops).
Lemma shut_b_sound ops h l : shut_b ops h l = true -> forall s x o, s ∈ l -> ops !! x = Some o -> s ∈ secrets (so_op o) -> ~ in_force ops h x.
Proof.
  unfold shut_b. rewrite forallb_forall. intros B s x o Hs E Hk. specialize (B _ (in_ops _ _ _ E)). apply orb_true_iff in B as [B|B]; [|eapply out_of_force_b_sound; eauto].
  exfalso. rewrite forallb_forall in B. apply elem_of_list_In in Hs. specialize (B _ Hs). apply negb_true_iff in B. apply elem_b_spec in Hk. cbn in B. congruence.
Qed.
(** Every addition of the member is not there or followed by a removal. *)
Definition absent_b (ops : gmap digest signed_op) (id : member_id) (h : digest) : bool :=
  let l := map_to_list ops in
  forallb (fun x => match GrowPropsProofs.adds_id x.2 with
    | Some id' => negb (id' =? id) || not_then_b ops h x.1 || existsb (fun y => removes_id y.2 id && then_b ops h y.1 && before_b ops (size ops) x.1 y.1) l
    | None => true
    end) l.
Lemma absent_b_sound ops id h : (forall x, ~ came_before ops x x) -> absent_b ops id h = true -> ~ member_at ops id h.
Proof.
  intros Irr. unfold absent_b. rewrite forallb_forall. intros B (i & a & o & pk & ps & qs & Ha & Ea & Eo & Rm). specialize (B _ (in_ops _ _ _ Ea)). cbn in B. unfold GrowPropsProofs.adds_id in B.
  rewrite Eo, Nat.eqb_refl in B. cbn in B. apply orb_true_iff in B as [B|B]; [exact (not_then_b_sound _ _ _ B Ha)|]. apply existsb_exists in B as ([r o'] & Hr & B).
  apply elem_of_list_In, elem_of_map_to_list in Hr. cbn in B. rewrite !andb_true_iff in B. destruct B as [[B1 B2] B3]. unfold removes_id in B1.
  destruct (so_op o') as [|id' j ks ps'|] eqn:Eor; try discriminate. apply Nat.eqb_eq in B1 as ->. apply (Irr a). eapply tc_transitive; [eapply before_b_sound; exact B3|].
  eapply Rm; [apply then_b_sound; exact B2|exact Hr|exact Eor].
Qed.
Lemma net_no_loops ho ro n : (forall r, some_order (ho r)) -> (forall r, some_order (ro r)) -> net_reachable ho ro n -> forall x, ~ came_before (n_ops n) x x.
Proof. intros HH HR R x. pose proof (net_reachable_good ho ro HH HR _ R) as NG. apply bef_irr. apply (no_ops _ _ _ (ng_ok _ _ _ NG)). Qed.
(** The secrets that came with operations about some members. *)
Definition secrets_about (ops : gmap digest signed_op) (ids : list member_id) : list secret_key :=
  concat (map (fun x => if elem_b ids (about (so_op x.2)) then secrets (so_op x.2) else []) (map_to_list ops)).
Definition apart_b (ops : gmap digest signed_op) (ids : list member_id) : bool :=
  forallb (fun x => elem_b ids (about (so_op x.2)) || forallb (fun s => negb (elem_b (secrets_about ops ids) s)) (secrets (so_op x.2))) (map_to_list ops).
Lemma apart_b_sound ops ids : apart_b ops ids = true -> forall s x o, s ∈ secrets_about ops ids -> ops !! x = Some o -> s ∈ secrets (so_op o) -> about (so_op o) ∈ ids.
Proof.
  unfold apart_b. rewrite forallb_forall. intros B s x o Hs E Hk. specialize (B _ (in_ops _ _ _ E)). apply orb_true_iff in B as [B|B]; [apply elem_b_spec, B|].
  exfalso. rewrite forallb_forall in B. apply elem_of_list_In in Hk. specialize (B _ Hk). apply negb_true_iff in B. apply elem_b_spec in Hs. cbn in B. congruence.
Qed.

(** What can be derived from some secrets. *)
Definition sealed_in (op : cgka_op) : list enc_secret :=
  match op with
  | CUpdate _ pc _ => concat (map (fun n => concat (map (fun v => map snd (map_to_list (v_sk v))) n.2)) (pc_path pc))
  | _ => []
  end.
Definition all_sealed (ops : gmap digest signed_op) : list enc_secret := concat (map (fun x => sealed_in (so_op x.2)) (map_to_list ops)).
Definition opens_b (keys : list secret_key) (e : enc_secret) : bool :=
  let '(a, b) := es_key e in bool_decide (es_key e = derive_symmetric_key a b) && (elem_b keys a || elem_b keys b).
Definition spread (es : list enc_secret) (keys : list secret_key) : list secret_key := map es_msg (List.filter (opens_b keys) es) ++ keys.
Fixpoint spreads (n : nat) (es : list enc_secret) (keys : list secret_key) : list secret_key :=
  match n with 0 => keys | S n' => spreads n' es (remove_dups (spread es keys)) end.
Lemma all_sealed_seen ops e : e ∈ all_sealed ops -> seen ops e.
Proof.
  unfold all_sealed. intros H. apply elem_of_list_In, in_concat in H as (l & Hl & H). apply in_map_iff in Hl as ([x o] & <- & Hx). apply elem_of_list_In, elem_of_map_to_list in Hx. cbn [snd] in H.
  destruct (so_op o) as [| |id pc ps] eqn:Eo; cbn [sealed_in] in H; [contradiction..|]. apply in_concat in H as (l & Hl & H). apply in_map_iff in Hl as ([i st] & <- & Hi).
  cbn [snd] in H. apply in_concat in H as (l & Hl & H). apply in_map_iff in Hl as (v & <- & Hv). apply in_map_iff in H as ([y e'] & <- & He). apply elem_of_list_In, elem_of_map_to_list in He.
  exists x, o, id, pc, ps. split; [exact Hx|]. split; [exact Eo|]. exists pc, i, st, v, y. split; [left|]. split; [apply elem_of_list_In, Hi|]. split; [apply elem_of_list_In, Hv|exact He].
Qed.
Lemma spread_sound ops (K : secret_key -> Prop) keys : (forall s, s ∈ keys -> derivable K (seen ops) s) -> forall s, s ∈ spread (all_sealed ops) keys -> derivable K (seen ops) s.
Proof.
  intros H s Hs. apply elem_of_app in Hs as [Hs|Hs]; [|auto]. apply elem_of_list_In, in_map_iff in Hs as (e & <- & He). apply filter_In in He as [He Ho].
  apply elem_of_list_In, all_sealed_seen in He. unfold opens_b in Ho. destruct (es_key e) as [a b] eqn:Ek. apply andb_true_iff in Ho as [Hd Ho]. apply bool_decide_eq_true in Hd.
  apply orb_true_iff in Ho as [Ho|Ho]; apply elem_b_spec in Ho.
  - eapply (derivable_open _ _ e a b); [exact He|auto|congruence].
  - eapply (derivable_open _ _ e b a); [exact He|auto|]. rewrite Ek, Hd. apply derive_sym.
Qed.
Lemma spreads_sound ops (K : secret_key -> Prop) n : forall keys, (forall s, s ∈ keys -> derivable K (seen ops) s) -> forall s, s ∈ spreads n (all_sealed ops) keys -> derivable K (seen ops) s.
Proof.
  induction n as [|n IH]; intros keys H s Hs; cbn [spreads] in Hs; [auto|]. refine (IH _ _ s Hs). intros s' Hs'. exact (spread_sound ops K keys H s' (proj1 (elem_of_remove_dups _ _) Hs')).
Qed.
