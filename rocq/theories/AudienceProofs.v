(** What a message is sealed under: the operation that gathers everything the sealer knows. *)
From Coq Require Import Arith Lia.
From stdpp Require Import base list gmap relations.
From Verif Require Import ResModel KeysModel TreeMathModel TreeMathSpec TreeMathProofs TreeModel TreeSpec TreeOps TreeView TreeProofs TreeInv
  OpsModel OpsSpec OpsInv OpsProofs OpsPropsProofs OpsAlone CgkaModel CgkaSpec CgkaProofs CgkaReplay CgkaConverge CgkaSound NetSpec NetProofs NetKeys NetAgree NetInv NetRun
  GrowSpec GrowNet GrowReceive ReadSpec ReadTree ReadWorld ReadNet ReadMade ReadPropsProofs ReadRoster SecrecySpec TurnSecretSpec ShutSpec ShutPropsProofs EffectSpec EffectPropsProofs.

Section one.
Context (horder : gset digest -> list digest) (rorder : gset (member_id * nat) -> list (member_id * nat)) (HH : some_order horder) (HR : some_order rorder).
Lemma secret_head c ref content preds sk h rng c' s o ops : cgka_reachable horder rorder c -> cgka_reachable horder rorder c' ->
  local_good c -> g_ops (c_graph c) ⊆ ops -> g_ops (c_graph c') ⊆ ops -> ops_ok ops -> keys_good ops c ->
  new_app_secret_for horder rorder c ref content preds sk h rng = (c', Ok (s, o)) ->
  (c_graph c' = c_graph c \/ exists op, so_hash op = h /\ is_update (so_op op) = true /\ c_graph c' = add_local_op (c_graph c) op) /\
  exists hd k, g_heads (c_graph c') = {[ hd ]} /\ epoch_key ops hd k /\ epoch_key ops (as_op s) k.
Proof.
  intros R R' L S S' OK KG Q0. pose proof Q0 as Q1. destruct (new_app_secret_good horder rorder HH HR _ _ _ _ _ _ _ _ _ ops R R' L S S' OK KG Q1) as (_ & _ & _ & F).
  destruct (F s o eq_refl) as (k0 & E1 & E2 & _ & Ek0). clear F Q1. revert Q0.
  assert (SR : single_root (c_graph c)) by (eapply single_root_mono; [|exact (oo_root _ OK)]; exact S).
  assert (SR' : single_root (c_graph c')) by (eapply single_root_mono; [|exact (oo_root _ OK)]; exact S').
  assert (U : unordered_preds (c_graph c)) by (eapply unordered_mono; [|exact (oo_unordered _ OK)]; exact S).
  assert (U' : unordered_preds (c_graph c')) by (eapply unordered_mono; [|exact (oo_unordered _ OK)]; exact S').
  unfold new_app_secret_for. destruct (has_pcs_key c) as [[]|e| |] eqn:Eh; try discriminate.
  - destruct (pcs_key_from_tree_root c) as [c1 r1] eqn:Er. pose proof (root_graph _ _ _ Er) as [sks ->].
    apply root_key_sound in Er as [GS Ri]; [|exact (lg_tree _ L)|exact (lg_sks _ L)]. destruct r1 as [k|e| |]; try discriminate.
    unfold has_pcs_key in Eh. apply rbind_ok in Eh as (b & _ & Eh). injection Eh as Eh. apply andb_true_iff in Eh as [Eh _]. apply andb_true_iff in Eh as [_ Eh].
    apply single_head_is in Eh as [hd Hhd]. assert (Ek : epoch_key ops hd k) by (eapply epoch_key_mono; [exact S|eapply head_epoch_key; eauto]).
    cbn [c_pcs c_pcs_ops c_graph set_sks].
    assert (Fin : forall d oh, c_graph d = c_graph c -> (d, Ok (derive_application_secret k (Siv k content) ref preds oh, @None signed_op)) = (c', Ok (s, o)) ->
      (c_graph c' = c_graph c \/ exists op, so_hash op = h /\ is_update (so_op op) = true /\ c_graph c' = add_local_op (c_graph c) op) /\
      exists hd k, g_heads (c_graph c') = {[ hd ]} /\ epoch_key ops hd k /\ epoch_key ops (as_op s) k).
    { intros d oh Gd Z. injection Z as <- <- <-. split; [auto|]. exists hd, k. rewrite Gd. split; [exact Hhd|]. split; [exact Ek|].
      cbn in E1. unfold pcs_digest in E1. subst k0. exact Ek0. }
    destruct (c_pcs c !! pcs_digest k); [|destruct (horder _)]; cbn [c_pcs_ops set_sks insert_pcs_key]; (destruct (_ !! _) as [oh|]; [|discriminate]); apply Fin; reflexivity.
  - destruct (cgka_update horder rorder c sk h rng) as [c1 r1] eqn:Eu.
    assert (Up : c_graph c1 = c_graph c \/ exists op, so_hash op = h /\ is_update (so_op op) = true /\ c_graph c1 = add_local_op (c_graph c) op).
    { clear -Eu. unfold cgka_update in Eu. destruct (maybe_replay horder rorder c) as [c2|e| |] eqn:Em; [|injection Eu as <- <-; auto..].
      apply maybe_replay_graph in Em as (G & _). destruct (update_identity _ _ _) as [[[id pk] sk']|e| |]; [|injection Eu as <- <-; cbn; auto..].
      destruct (encrypt_path _ _ _ _ _) as [[[[[t k] path] sks] rng']|e| |]; injection Eu as <- <-; auto. right. cbn [c_graph set_graph set_tree set_sks insert_pcs_key]. rewrite G.
      eexists. split; [|split; [|reflexivity]]; reflexivity. }
    apply (update_good horder rorder HH HR _ _ _ _ _ _ R SR L) in Eu as [L1 [(K1 & K2 & Nx)|(k & op & rng' & c2 & -> & Eop & -> & K1 & K2 & Ri & Hhd)]].
    { destruct r1 as [[[k op] rng']|e| |]; try discriminate. exfalso. eapply Nx. reflexivity. }
    cbn [c_pcs_ops insert_pcs_key]. unfold pcs_digest. rewrite lookup_insert. intros Q. injection Q as <- <- <-.
    split; [exact Up|]. exists h, k. split; [exact Hhd|].
    assert (Ek : epoch_key ops h k) by (eapply epoch_key_mono; [exact S'|eapply (head_epoch_key horder rorder HH HR _ h k R' SR' U'); [exact Hhd|exact Ri]]).
    split; [exact Ek|]. cbn. rewrite Eop. exact Ek.
Qed.
End one.

Section net.
Context (horder : nat -> gset digest -> list digest).
Context (rorder : nat -> gset (member_id * nat) -> list (member_id * nat)).
Context (HH : forall r, some_order (horder r)) (HR : forall r, some_order (rorder r)).

(** The key of an epoch came with the operation that the epoch ends with. *)
Lemma epoch_maker n h k : net_reachable horder rorder n -> orderly (n_ops n) -> epoch_key (n_ops n) h k ->
  exists o, n_ops n !! h = Some o /\ k ∈ inner_keys (so_op o).
Proof.
  intros R Od Ek. destruct (epoch_described horder rorder HH HR n R Od h k Ek) as (D & t & hh & Ds & Cl & HD & Nk).
  destruct (net_world horder rorder HH HR n R Od) as (OK & CA & AT & OW & FK).
  pose proof (sh_h _ _ (ds_shape _ _ _ _ Ds)) as H1. destruct hh as [|hh]; [lia|]. cbn [nkey] in Nk.
  destruct (innerv t hh 0) as [[|v [|]]|] eqn:Es; try discriminate. injection Nk as <-.
  destruct (ds_inner _ _ _ _ Ds _ _ _ Es) as (_ & _ & Mm). destruct (proj1 (Mm v) ltac:(left)) as (u & Lu & Vu).
  assert (Hin : h ∈ D) by (apply HD; left; reflexivity).
  assert (u = h) as ->.
  { destruct (proj1 (HD u) (lv_in _ _ _ _ _ Lu)) as [H|H]; [exact H|]. exfalso. refine (lv_last _ _ _ _ _ Lu h Hin _ H).
    assert (Eo : exists o, n_ops n !! h = Some o) by (destruct (OpsAlone.tc_last _ _ _ H) as [(o & Eo & _)|(z & _ & (o & Eo & _))]; eauto). destruct Eo as [o Eo].
    assert (Ti : exists i, touches (n_ops n) h i) by (destruct (so_op o) as [id pk i ps qs|id i ks ps|id pc ps] eqn:Q; [exists i|exists i|exists (pc_leaf_idx pc)]; exists o; rewrite Q; auto).
    destruct Ti as [i Ti]. exists i. split; [exact Ti|]. apply anc_root. exact (touch_index (n_ops n) CA D t (S hh) h i Ds Cl Hin Ti). }
  destruct Vu as (o & id & pc & ps & m & Eo & Q & L). exists o. split; [exact Eo|]. rewrite Q. cbn [inner_keys]. apply elem_of_list_In, in_concat.
  exists (map v_pk [v]). split; [|left; reflexivity]. apply in_map_iff. exists (m, [v]). split; [reflexivity|]. apply elem_of_list_In. eapply elem_of_list_lookup_2. exact L.
Qed.
Lemma epoch_unique n h h' k : net_reachable horder rorder n -> orderly (n_ops n) -> epoch_key (n_ops n) h k -> epoch_key (n_ops n) h' k -> h = h'.
Proof.
  intros R Od A B. destruct (epoch_maker n h k R Od A) as (o & E & I). destruct (epoch_maker n h' k R Od B) as (o' & E' & I').
  eapply (od_fresh _ Od); [exact E|exact E'|exact I|]. destruct (so_op o') as [| |id pc ps]; cbn in I' |- *; [inversion I'|inversion I'|]. apply elem_of_app. right. exact I'.
Qed.

(** ** Sealing *)
Section seal.
Context (n : network) (r : nat) (c c' : cgka) (ref : nat) (content : list nat) (preds : list nat) (sk : secret_key) (h : digest) (rng : list secret_key) (s : app_secret) (o : option signed_op).
Context (R : net_reachable horder rorder n) (E : n_reps n !! r = Some c) (U : n_ops n !! h = None).
Context (Q : new_app_secret_for (horder r) (rorder r) c ref content preds sk h rng = (c', Ok (s, o))).
Notation n1 := (sent (moved n r c') [app_encrypt s content]).
Context (Od : orderly (n_ops n1)).

Lemma seal_step : net_step horder rorder n n1.
Proof. eapply ns_encrypt; [exact E|exact U|exact Q]. Qed.
Lemma seal_reach : net_reachable horder rorder n1.
Proof. eapply nr_step; [exact R|exact seal_step]. Qed.
Lemma seal_rep : n_reps n1 !! r = Some c'.
Proof. apply lookup_insert. Qed.
Lemma seal_facts : g_heads (c_graph c') = {[ as_op s ]} /\
  (c_graph c' = c_graph c \/ exists op, so_hash op = h /\ is_update (so_op op) = true /\ c_graph c' = add_local_op (c_graph c) op).
Proof.
  pose proof (net_reachable_good horder rorder HH HR _ R) as [OK So M L K C]. pose proof (net_reachable_ok horder rorder HH HR _ seal_reach) as OK1.
  assert (Mo : n_ops n ⊆ n_ops n1) by apply map_union_subseteq_l.
  destruct (secret_head (horder r) (rorder r) (HH r) (HR r) c ref content preds sk h rng c' s o (n_ops n1)) as [A (hd & k & B & X & Y)].
  - apply (no_reach _ _ _ OK _ _ E).
  - apply (no_reach _ _ _ OK1 _ _ seal_rep).
  - eauto.
  - transitivity (n_ops n); [apply (no_sub _ _ _ OK _ _ E)|exact Mo].
  - apply (no_sub _ _ _ OK1 _ _ seal_rep).
  - apply (no_ops _ _ _ OK1).
  - eapply keys_good_mono; [exact Mo|eauto].
  - exact Q.
  - split; [|exact A]. rewrite B. f_equal. exact (epoch_unique n1 hd (as_op s) k seal_reach Od X Y).
Qed.
(** Sealing changes no members. *)
Lemma seal_members m : member (g_ops (c_graph c')) m <-> member (g_ops (c_graph c)) m.
Proof.
  pose proof (net_reachable_ok horder rorder HH HR _ R) as K. destruct seal_facts as [_ [-> |(op & Eh & Up & ->)]]; [reflexivity|].
  cbn [add_local_op add_op_and_update_heads g_ops]. rewrite Eh. eapply next_update; [|exact (graph_closed horder rorder HH HR n R r c E)|exact Up].
  destruct (g_ops (c_graph c) !! h) as [x|] eqn:G; [|reflexivity]. rewrite (lookup_weaken _ _ _ _ G (no_sub _ _ _ K _ _ E)) in U. discriminate.
Qed.
(** The operation it is sealed under gathers what the sealer knows and nothing else. *)
Lemma seal_past n' x : rtc (net_step horder rorder) n1 n' -> is_Some (g_ops (c_graph c') !! x) <-> by_then (n_ops n') (as_op s) x.
Proof.
  intros S. pose proof (net_reachable_ok horder rorder HH HR _ seal_reach) as K1. pose proof (steps_ops horder rorder _ _ S) as Su.
  assert (Sub : g_ops (c_graph c') ⊆ n_ops n') by (etrans; [exact (no_sub _ _ _ K1 _ _ seal_rep)|exact Su]).
  assert (Rg : graph_reachable (c_graph c')) by (eapply cgka_graph_reachable; [apply HH|exact (no_reach _ _ _ K1 _ _ seal_rep)]).
  pose proof (graph_closed horder rorder HH HR _ seal_reach r c' seal_rep) as Cl. destruct seal_facts as [Hh _].
  assert (Kh : is_Some (g_ops (c_graph c') !! as_op s)) by (apply (gi_heads _ (reachable_ginv _ Rg)); rewrite Hh; apply elem_of_singleton; reflexivity).
  split.
  - intros Hx. destruct (some_head_lemma _ Rg x Hx) as (k & Hk & Rk). rewrite Hh in Hk. apply elem_of_singleton in Hk as ->.
    apply rtc_tc in Rk as [-> |Rk]; [left; reflexivity|]. right. exact (before_mono (c_graph c') (all_ops (n_ops n')) _ _ Sub Rk).
  - intros [-> |B]; [exact Kh|]. apply (before_same (g_ops (c_graph c')) (n_ops n') x (as_op s) Sub Cl Kh) in B.
    eapply (past_known (g_ops (c_graph c'))); [exact Cl|exact B].
Qed.
Lemma seal_at n' m : rtc (net_step horder rorder) n1 n' -> member_at (n_ops n') m (as_op s) <-> member (g_ops (c_graph c)) m.
Proof.
  intros S. rewrite <- seal_members. pose proof (net_reachable_ok horder rorder HH HR _ seal_reach) as K1. pose proof (steps_ops horder rorder _ _ S) as Su.
  assert (Sub : g_ops (c_graph c') ⊆ n_ops n') by (etrans; [exact (no_sub _ _ _ K1 _ _ seal_rep)|exact Su]).
  pose proof (graph_closed horder rorder HH HR _ seal_reach r c' seal_rep) as Cl. unfold member_at, member.
  split; intros [i X]; exists i.
  - apply (seat_up (g_ops (c_graph c')) (n_ops n') Sub Cl) in X; [|intros x Hx; apply (seal_past n' x S), Hx]. refine (proj1 (seat_ext _ _ _ _ _ _) X). intros x ox _ _. symmetry. apply (seal_past n' x S).
  - apply (seat_up (g_ops (c_graph c')) (n_ops n') Sub Cl); [intros x Hx; apply (seal_past n' x S), Hx|]. refine (proj1 (seat_ext _ _ _ _ _ _) X). intros x ox _ _. apply (seal_past n' x S).
Qed.
End seal.
End net.

(** Being a member at an operation does not depend on what else is known. *)
Lemma member_at_known ho ro n r c h m : (forall r, some_order (ho r)) -> (forall r, some_order (ro r)) -> net_reachable ho ro n -> n_reps n !! r = Some c -> is_Some (g_ops (c_graph c) !! h) ->
  member_at (n_ops n) m h <-> member_at (g_ops (c_graph c)) m h.
Proof.
  intros HH HR R E Kn. pose proof (net_reachable_ok ho ro HH HR _ R) as K. pose proof (no_sub _ _ _ K _ _ E) as Sub. pose proof (graph_closed ho ro HH HR n R r c E) as Cl.
  assert (P : forall x, by_then (n_ops n) h x -> is_Some (g_ops (c_graph c) !! x)).
  { intros x [-> |B]; [exact Kn|]. apply (before_same _ _ x h Sub Cl Kn) in B. eapply (past_known (g_ops (c_graph c))); [exact Cl|exact B]. }
  unfold member_at. split; intros [i X]; exists i.
  - apply (seat_up (g_ops (c_graph c)) (n_ops n) Sub Cl) in X; [|exact P]. refine (proj1 (seat_ext _ _ _ _ _ _) X). intros x o _ _.
    split; (intros [Z|B]; [left; exact Z|right]); apply (before_same _ _ x h Sub Cl Kn); exact B.
  - apply (seat_up (g_ops (c_graph c)) (n_ops n) Sub Cl); [exact P|]. refine (proj1 (seat_ext _ _ _ _ _ _) X). intros x o _ _.
    split; (intros [Z|B]; [left; exact Z|right]); apply (before_same _ _ x h Sub Cl Kn); exact B.
Qed.
Definition no_secret : app_secret := AppSecret (AppKey 0 [] 0) 0 0 (Siv 0 []) 0 [].
Definition secret_of (r : cgka * res (app_secret * option signed_op)) : app_secret := match r.2 with Ok (s, _) => s | _ => no_secret end.
Lemma seal_check (r : cgka * res (app_secret * option signed_op)) : (match r.2 with Ok _ => true | _ => false end) = true -> exists o, r = (r.1, Ok (secret_of r, o)).
Proof. destruct r as [c' [[s o]| | |]]; try discriminate. cbn. eauto. Qed.
