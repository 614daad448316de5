(** Whom a message is sealed for: those who are members to the knowledge of its author (C55). *)
From Coq Require Import Arith.
From stdpp Require Import base list gmap relations.
From Verif Require Import ResModel KeysModel TreeModel OpsModel OpsSpec CgkaModel CgkaSpec NetSpec NetProofs NetInv NetRun CgkaPropsProofs SecrecySpec TurnSecretSpec
  GrowSpec ReadSpec ReadMade ReadPropsProofs ReadRoster ReadProps ShutSpec ShutPropsProofs ShutProps EffectSpec EffectPropsProofs EffectProps AudienceProofs.

Section net.
Context (ho : nat -> gset digest -> list digest) (ro : nat -> gset (member_id * nat) -> list (member_id * nat)).
Context (HH : forall i, some_order (ho i)) (HR : forall i, some_order (ro i)).

(** A replica seals a message.  The operation it is sealed under was made with knowledge of
    everything that replica knows, and of nothing else. *)
Theorem C55_gathers n r c ref content preds sk h rng c' s o n' x : net_reachable ho ro n -> n_reps n !! r = Some c -> n_ops n !! h = None ->
  new_app_secret_for (ho r) (ro r) c ref content preds sk h rng = (c', Ok (s, o)) ->
  let n1 := sent (moved n r c') [app_encrypt s content] in
  orderly (n_ops n1) -> rtc (net_step ho ro) n1 n' ->
  is_Some (g_ops (c_graph c') !! x) <-> by_then (n_ops n') (ec_op (app_encrypt s content)) x.
Proof. intros R E U Q n1 Od S. exact (seal_past ho ro HH HR n r c c' ref content preds sk h rng s o R E U Q Od n' x S). Qed.

(** Whoever is a member to the knowledge of the author reads the message as soon as that
    operation is known, whatever happens in between. *)
Theorem C55_members_read n r c ref content preds sk h rng c' s o n' r' d : net_reachable ho ro n -> n_reps n !! r = Some c -> n_ops n !! h = None ->
  new_app_secret_for (ho r) (ro r) c ref content preds sk h rng = (c', Ok (s, o)) ->
  let e := app_encrypt s content in
  rtc (net_step ho ro) (sent (moved n r c') [e]) n' -> orderly (n_ops n') -> n_reps n' !! r' = Some d ->
  member (g_ops (c_graph c)) (c_owner d) -> is_Some (g_ops (c_graph d) !! ec_op e) -> holds_own (g_ops (c_graph d)) d ->
  exists d' key, decryption_key_for (ro r') d e = (d', Ok key) /\ content_decrypt e key = Some content.
Proof.
  intros R E U Q e S Od Ed M Kn Ho. pose proof (seal_reach ho ro n r c c' ref content preds sk h rng s o R E U Q) as R1. pose proof (steps_reachable _ _ _ _ R1 S) as R2.
  pose proof (steps_ops ho ro _ _ S) as Su. assert (Od1 : orderly (n_ops (sent (moved n r c') [e]))).
  { eapply orderly_down; [exact Su| |exact Od]. apply (no_ops _ _ _ (net_reachable_ok ho ro HH HR _ R1)). }
  assert (He : e ∈ n_cts n').
  { assert (H : forall a b, rtc (net_step ho ro) a b -> forall x, x ∈ n_cts a -> x ∈ n_cts b).
    { clear. intros a b S. induction S as [|a b c S _ IH]; [auto|]. intros x Hx. apply IH. destruct S; cbn [n_cts moved sent]; try exact Hx. cbn. rewrite elem_of_cons. auto. }
    eapply H; [exact S|]. cbn. left. }
  apply (members_read_content ho ro HH HR n' R2 Od r' d e (c_owner d) Ed He Kn (or_introl eq_refl)); [|exact Ho].
  apply (member_at_known ho ro n' r' d (ec_op e) _ HH HR R2 Ed Kn). exact (proj2 (seal_at ho ro HH HR n r c c' ref content preds sk h rng s o R E U Q Od1 n' _ S) M).
Qed.

(** People who are no members to the knowledge of the author, all together, with everything
    that came and will ever come with operations about them, cannot open it. *)
Theorem C55_others_locked_out n r c ref content preds sk h rng c' s o n' (C : member_id -> Prop) (K : secret_key -> Prop) :
  net_reachable ho ro n -> n_reps n !! r = Some c -> n_ops n !! h = None ->
  new_app_secret_for (ho r) (ro r) c ref content preds sk h rng = (c', Ok (s, o)) ->
  let e := app_encrypt s content in
  rtc (net_step ho ro) (sent (moved n r c') [e]) n' -> orderly (n_ops n') -> fresh_secrets (n_ops n') ->
  (forall m, C m -> ~ member (g_ops (c_graph c)) m) ->
  (forall k x p, K k -> n_ops n' !! x = Some p -> k ∈ secrets (so_op p) -> C (about (so_op p))) ->
  closed_to K (n_ops n') e.
Proof.
  intros R E U Q e S Od FS M HK. pose proof (seal_reach ho ro n r c c' ref content preds sk h rng s o R E U Q) as R1. pose proof (steps_reachable _ _ _ _ R1 S) as R2.
  pose proof (steps_ops ho ro _ _ S) as Su. assert (Od1 : orderly (n_ops (sent (moved n r c') [e]))).
  { eapply orderly_down; [exact Su| |exact Od]. apply (no_ops _ _ _ (net_reachable_ok ho ro HH HR _ R1)). }
  assert (He : e ∈ n_cts n').
  { assert (H : forall a b, rtc (net_step ho ro) a b -> forall x, x ∈ n_cts a -> x ∈ n_cts b).
    { clear. intros a b S. induction S as [|a b c S _ IH]; [auto|]. intros x Hx. apply IH. destruct S; cbn [n_cts moved sent]; try exact Hx. cbn. rewrite elem_of_cons. auto. }
    eapply H; [exact S|]. cbn. left. }
  apply (outsiders_shut ho ro HH HR n' R2 Od e C K FS He); [|exact HK]. intros m Cm A.
  apply (M m Cm). exact (proj1 (seal_at ho ro HH HR n r c c' ref content preds sk h rng s o R E U Q Od1 n' m S) A).
Qed.
End net.
Print Assumptions C55_gathers.
Print Assumptions C55_members_read.
Print Assumptions C55_others_locked_out.

(** A case: 1 removes 4; 1 and 3 update at the same time; 1, who knows of both updates, seals a
    message, with an update that gathers them.  3 receives that update and reads; 4 cannot. *)
Definition s_ready : network := net_of (acts (moved e_turn 0 e_turn_done) [AReceive 2 106; AUpdate 2 26 107 [81;82;83;84]; AUpdate 0 27 108 [91;92;93;94]; AReceive 0 107; AReceive 2 108]).
Definition s_seal : cgka * res (app_secret * option signed_op) := new_app_secret_for (asc_h 0) (asc_r 0) (rep s_ready 0) 7 [1;2;3] [] 28 130 [71;72;73;74;75;76;77;78].
Definition s_msg : encrypted_content := app_encrypt (secret_of s_seal) [1;2;3].
Definition s_after : network := net_of (acts (sent (moved s_ready 0 s_seal.1) [s_msg]) [AReceive 2 130]).
Example C55_case : exists o, net_reachable asc_h asc_r s_ready /\ n_reps s_ready !! 0 = Some (rep s_ready 0) /\ n_ops s_ready !! 130 = None /\
  new_app_secret_for (asc_h 0) (asc_r 0) (rep s_ready 0) 7 [1;2;3] [] 28 130 [71;72;73;74;75;76;77;78] = (s_seal.1, Ok (secret_of s_seal, o)) /\
  rtc (net_step asc_h asc_r) (sent (moved s_ready 0 s_seal.1) [s_msg]) s_after /\ orderly (n_ops s_after) /\ fresh_secrets (n_ops s_after) /\
  n_reps s_after !! 2 = Some (rep s_after 2) /\ c_owner (rep s_after 2) = 3 /\ member (g_ops (c_graph (rep s_ready 0))) 3 /\
  ec_op s_msg = 130 /\ is_Some (g_ops (c_graph (rep s_after 2)) !! 130) /\ holds_own (g_ops (c_graph (rep s_after 2))) (rep s_after 2) /\
  ~ member (g_ops (c_graph (rep s_ready 0))) 4 /\ size (g_heads (c_graph (rep s_ready 0))) = 2 /\ secrets_about (n_ops s_after) [4] = [14; 24; 51; 52] /\
  (forall k x p, k ∈ secrets_about (n_ops s_after) [4] -> n_ops s_after !! x = Some p -> k ∈ secrets (so_op p) -> about (so_op p) = 4) /\
  closed_to (fun k => k ∈ secrets_about (n_ops s_after) [4]) (n_ops s_after) s_msg.
Proof.
  destruct (seal_check s_seal) as [o Q]; [vm_compute; reflexivity|]. exists o.
  assert (R0 : net_reachable asc_h asc_r s_ready).
  { assert (R1 : net_reachable asc_h asc_r e_turn) by (apply r_run_reachable; vm_compute; reflexivity).
    assert (E1 : n_reps e_turn !! 0 = Some (rep e_turn 0)) by (apply rep_some; vm_compute; reflexivity).
    assert (U1 : n_ops e_turn !! 106 = None) by (vm_compute; reflexivity).
    destruct (made_ok (cgka_remove (asc_h 0) (asc_r 0) (rep e_turn 0) 4 106)) as [op Q1]; [vm_compute; reflexivity|].
    assert (R2 : net_reachable asc_h asc_r (moved e_turn 0 e_turn_done)) by (eapply nr_step; [exact R1|eapply ns_remove; [exact E1|exact U1|exact Q1]]).
    assert (S1 : rtc (net_step asc_h asc_r) (moved e_turn 0 e_turn_done) s_ready) by (apply acts_go; vm_compute; reflexivity).
    exact (steps_reachable _ _ _ _ R2 S1). }
  assert (E0 : n_reps s_ready !! 0 = Some (rep s_ready 0)) by (apply rep_some; vm_compute; reflexivity).
  assert (U : n_ops s_ready !! 130 = None) by (vm_compute; reflexivity).
  assert (S : rtc (net_step asc_h asc_r) (sent (moved s_ready 0 s_seal.1) [s_msg]) s_after) by (apply acts_go; vm_compute; reflexivity).
  assert (Od : orderly (n_ops s_after)) by (apply orderly_b_sound; vm_compute; reflexivity).
  assert (FS : fresh_secrets (n_ops s_after)) by (apply fresh_secrets_b_sound; vm_compute; reflexivity).
  assert (No : ~ member (g_ops (c_graph (rep s_ready 0))) 4).
  { apply gone_b_sound; [intros x; exact (no_loops asc_h asc_r asc_h_order asc_r_order s_ready R0 0 (rep s_ready 0) x E0)|vm_compute; reflexivity]. }
  assert (On : forall k x p, k ∈ secrets_about (n_ops s_after) [4] -> n_ops s_after !! x = Some p -> k ∈ secrets (so_op p) -> about (so_op p) = 4).
  { intros k x p Hs Ex Hp. assert (Qa : about (so_op p) ∈ [4]); [|apply elem_of_list_singleton in Qa; exact Qa]. revert k x p Hs Ex Hp. apply apart_b_sound. vm_compute. reflexivity. }
  split; [exact R0|]. split; [exact E0|]. split; [exact U|]. split; [exact Q|]. split; [exact S|]. split; [exact Od|]. split; [exact FS|]. split; [apply rep_some; vm_compute; reflexivity|]. split; [vm_compute; reflexivity|].
  split; [apply member_b_sound; vm_compute; reflexivity|]. split; [vm_compute; reflexivity|]. split; [apply (bool_decide_unpack _); vm_compute; exact I|]. split; [apply holds_b_sound; vm_compute; reflexivity|].
  split; [exact No|]. split; [vm_compute; reflexivity|]. split; [vm_compute; reflexivity|]. split; [exact On|].
  exact (C55_others_locked_out asc_h asc_r asc_h_order asc_r_order s_ready 0 (rep s_ready 0) 7 [1;2;3] [] 28 130 [71;72;73;74;75;76;77;78] s_seal.1 (secret_of s_seal) o s_after (fun m => m = 4)
    (fun k => k ∈ secrets_about (n_ops s_after) [4]) R0 E0 U Q S Od FS (fun m H => eq_ind_r (fun m => ~ member (g_ops (c_graph (rep s_ready 0))) m) No H) On).
Qed.
