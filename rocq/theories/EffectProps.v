(** Removing and adding somebody takes effect (C54). *)
From Coq Require Import Arith.
From stdpp Require Import base list gmap relations.
From Verif Require Import ResModel KeysModel TreeModel OpsModel OpsSpec CgkaModel CgkaSpec NetSpec NetProofs NetInv NetRun CgkaPropsProofs SecrecySpec TurnSecretSpec
  GrowSpec ReadSpec ReadPropsProofs ReadRoster ReadProps ShutSpec ShutPropsProofs ShutProps EffectSpec EffectPropsProofs.

Section net.
Context (ho : nat -> gset digest -> list digest) (ro : nat -> gset (member_id * nat) -> list (member_id * nat)).
Context (HH : forall i, some_order (ho i)) (HR : forall i, some_order (ro i)).

(** Somebody removes [m] and the call returns.  Then whatever is sealed with knowledge of
    what that replica knows from then on, before [m] is added again, is closed to [m].
    Missing: groups whose changes of members do not take turns, of which it is false. *)
Theorem C54_removal_partial n r c m h c' out n' e (K : secret_key -> Prop) :
  net_reachable ho ro n -> n_reps n !! r = Some c -> n_ops n !! h = None ->
  cgka_remove (ho r) (ro r) c m h = (c', Ok out) ->
  rtc (net_step ho ro) (moved n r c') n' -> orderly (n_ops n') -> fresh_secrets (n_ops n') -> e ∈ n_cts n' ->
  sealed_after (n_ops n') (g_ops (c_graph c')) m e -> only_of (n_ops n') m K ->
  closed_to K (n_ops n') e.
Proof. intros R E U Q S Od FS He [Kn Ad] HK. exact (removal_shuts ho ro HH HR n r c m h c' out n' e K R E U Q S Od FS He Kn Ad HK). Qed.
End net.
Print Assumptions C54_removal_partial.

(** A case: 4, who updated before, is removed by 1; 1 and 3 update at the same time and 1 seals a message. *)
Definition e_turn : network := r_run (r_base ++ [AUpdate 3 24 105 [51;52;53;54]; AReceive 0 105; AReceive 2 105]).
Definition e_turn_done : cgka := (cgka_remove (asc_h 0) (asc_r 0) (rep e_turn 0) 4 106).1.
Definition e_turn_then : network := net_of (acts (moved e_turn 0 e_turn_done) [AReceive 2 106; AUpdate 2 26 107 [81;82;83;84]; AUpdate 0 27 108 [91;92;93;94]; AReceive 0 107; AEncrypt 0 7 [1;2;3] [] 28 130 [71;72;73;74;75;76;77;78]]).
Example C54_removal_case : exists op e, net_reachable asc_h asc_r e_turn /\ n_reps e_turn !! 0 = Some (rep e_turn 0) /\ n_ops e_turn !! 106 = None /\
  cgka_remove (asc_h 0) (asc_r 0) (rep e_turn 0) 4 106 = (e_turn_done, Ok (Some op)) /\
  rtc (net_step asc_h asc_r) (moved e_turn 0 e_turn_done) e_turn_then /\ orderly (n_ops e_turn_then) /\ fresh_secrets (n_ops e_turn_then) /\ e ∈ n_cts e_turn_then /\
  sealed_after (n_ops e_turn_then) (g_ops (c_graph e_turn_done)) 4 e /\ secrets_about (n_ops e_turn_then) [4] = [14; 24; 51; 52] /\
  only_of (n_ops e_turn_then) 4 (fun k => k ∈ secrets_about (n_ops e_turn_then) [4]) /\ closed_to (fun k => k ∈ secrets_about (n_ops e_turn_then) [4]) (n_ops e_turn_then) e.
Proof.
  destruct (some_content e_turn_then) as (e & Eh & He); [vm_compute; reflexivity|].
  destruct (made_ok (cgka_remove (asc_h 0) (asc_r 0) (rep e_turn 0) 4 106)) as [op Q]; [vm_compute; reflexivity|].
  assert (R1 : net_reachable asc_h asc_r e_turn) by (apply r_run_reachable; vm_compute; reflexivity).
  assert (E1 : n_reps e_turn !! 0 = Some (rep e_turn 0)) by (apply rep_some; vm_compute; reflexivity).
  assert (U : n_ops e_turn !! 106 = None) by (vm_compute; reflexivity).
  assert (S : rtc (net_step asc_h asc_r) (moved e_turn 0 e_turn_done) e_turn_then) by (apply acts_go; vm_compute; reflexivity).
  assert (Od : orderly (n_ops e_turn_then)) by (apply orderly_b_sound; vm_compute; reflexivity).
  assert (FS : fresh_secrets (n_ops e_turn_then)) by (apply fresh_secrets_b_sound; vm_compute; reflexivity).
  assert (Af : sealed_after (n_ops e_turn_then) (g_ops (c_graph e_turn_done)) 4 e).
  { apply sealed_after_b_sound. apply (head_check _ (fun e => sealed_after_b (n_ops e_turn_then) (g_ops (c_graph e_turn_done)) 4 (ec_op e)) e Eh). vm_compute. reflexivity. }
  assert (On : only_of (n_ops e_turn_then) 4 (fun k => k ∈ secrets_about (n_ops e_turn_then) [4])).
  { intros s x o Hs Ex Ho. assert (Qa : about (so_op o) ∈ [4]); [|apply elem_of_list_singleton in Qa; exact Qa]. revert s x o Hs Ex Ho. apply apart_b_sound. vm_compute. reflexivity. }
  exists op, e. split; [exact R1|]. split; [exact E1|]. split; [exact U|]. split; [exact Q|]. split; [exact S|]. split; [exact Od|]. split; [exact FS|]. split; [exact He|]. split; [exact Af|].
  split; [vm_compute; reflexivity|]. split; [exact On|].
  exact (C54_removal_partial asc_h asc_r asc_h_order asc_r_order e_turn 0 (rep e_turn 0) 4 106 e_turn_done (Some op) e_turn_then e _ R1 E1 U Q S Od FS He Af On).
Qed.

(** ** It is false if changes of members do not take turns *)
Definition e_kept : network := r_run (r_base ++ [AUpdate 0 25 105 [61;62;63;64]; AAdd 2 5 15 106; AReceive 0 106]).
Definition e_kept_then : network := net_of (acts (moved e_kept 0 (rep e_kept 0)) [AEncrypt 0 7 [1;2;3] [] 28 130 [71;72;73;74;75;76;77;78]]).
(** 3 adds 5 while 1 updates.  1 receives the addition, so 5 is a member to the knowledge of 1.
    1 removes 5: the call returns without error, but there is no operation.  What 1 seals then
    opens with the key 5 was added with.  (The code asks whether 5 is in the tree before it
    brings the tree up to date.) *)
Theorem C54_removal_ignored_refuted :
  exists n r c m h n' e K, net_reachable asc_h asc_r n /\ n_reps n !! r = Some c /\ n_ops n !! h = None /\
    member (g_ops (c_graph c)) m /\ cgka_remove (asc_h r) (asc_r r) c m h = (c, Ok None) /\
    rtc (net_step asc_h asc_r) (moved n r c) n' /\ one_writer (n_ops n') /\ fresh_keys (n_ops n') /\ fresh_secrets (n_ops n') /\ e ∈ n_cts n' /\
    sealed_after (n_ops n') (g_ops (c_graph c)) m e /\ only_of (n_ops n') m K /\ ~ closed_to K (n_ops n') e.
Proof.
  destruct (some_content e_kept_then) as (e & Eh & He); [vm_compute; reflexivity|].
  exists e_kept, 0, (rep e_kept 0), 5, 107, e_kept_then, e, (fun k => k ∈ secrets_about (n_ops e_kept_then) [5]).
  split; [apply r_run_reachable; vm_compute; reflexivity|]. split; [apply rep_some; vm_compute; reflexivity|]. split; [vm_compute; reflexivity|].
  split; [apply member_b_sound; vm_compute; reflexivity|]. split; [apply remove_stranger; vm_compute; reflexivity|]. split; [apply acts_go; vm_compute; reflexivity|].
  split; [apply one_b_sound; vm_compute; reflexivity|]. split; [apply fresh_b_sound; vm_compute; reflexivity|]. split; [apply fresh_secrets_b_sound; vm_compute; reflexivity|].
  split; [exact He|]. split; [apply sealed_after_b_sound; apply (head_check _ (fun e => sealed_after_b (n_ops e_kept_then) (g_ops (c_graph (rep e_kept 0))) 5 (ec_op e)) e Eh); vm_compute; reflexivity|].
  split.
  - intros s x o Hs Ex Ho. assert (Q : about (so_op o) ∈ [5]); [|apply elem_of_list_singleton in Q; exact Q].
    revert s x o Hs Ex Ho. apply apart_b_sound. vm_compute. reflexivity.
  - apply (opened_b_sound _ e (secrets_about (n_ops e_kept_then) [5])); [auto|]. apply (head_check _ (fun e => opened_b e_kept_then e (secrets_about (n_ops e_kept_then) [5])) e Eh). vm_compute. reflexivity.
Qed.
Print Assumptions C54_removal_ignored_refuted.

Definition e_twice : network := r_run (r_base ++ [AAdd 2 5 15 105; AAdd 0 5 16 106; AReceive 0 105]).
Definition e_twice_done : cgka := (cgka_remove (asc_h 0) (asc_r 0) (rep e_twice 0) 5 107).1.
Definition e_twice_then : network := net_of (acts (moved e_twice 0 e_twice_done) [AEncrypt 0 7 [1;2;3] [] 28 130 [71;72;73;74;75;76;77;78]]).
(** 1 and 3 both add 5.  1, who knows of both, removes 5, and the operation is made and known
    to everybody who seals from then on.  What 1 seals still opens with one of the keys 5
    was added with, and 5 cannot be removed any more. *)
Theorem C54_added_twice_refuted :
  exists n r c m h c' op n' e K, net_reachable asc_h asc_r n /\ n_reps n !! r = Some c /\ n_ops n !! h = None /\
    cgka_remove (asc_h r) (asc_r r) c m h = (c', Ok (Some op)) /\
    (forall h', cgka_remove (asc_h r) (asc_r r) c' m h' = (c', Ok None)) /\
    rtc (net_step asc_h asc_r) (moved n r c') n' /\ one_writer (n_ops n') /\ fresh_keys (n_ops n') /\ fresh_secrets (n_ops n') /\ e ∈ n_cts n' /\
    sealed_after (n_ops n') (g_ops (c_graph c')) m e /\ ~ member_at (n_ops n') m (ec_op e) /\ only_of (n_ops n') m K /\ ~ closed_to K (n_ops n') e.
Proof.
  destruct (some_content e_twice_then) as (e & Eh & He); [vm_compute; reflexivity|].
  destruct (made_ok (cgka_remove (asc_h 0) (asc_r 0) (rep e_twice 0) 5 107)) as [op Q]; [vm_compute; reflexivity|].
  assert (R1 : net_reachable asc_h asc_r e_twice) by (apply r_run_reachable; vm_compute; reflexivity).
  assert (E1 : n_reps e_twice !! 0 = Some (rep e_twice 0)) by (apply rep_some; vm_compute; reflexivity).
  assert (U : n_ops e_twice !! 107 = None) by (vm_compute; reflexivity).
  assert (S : rtc (net_step asc_h asc_r) (moved e_twice 0 e_twice_done) e_twice_then) by (apply acts_go; vm_compute; reflexivity).
  assert (R2 : net_reachable asc_h asc_r e_twice_then) by (eapply steps_reachable; [eapply nr_step; [exact R1|eapply ns_remove; [exact E1|exact U|exact Q]]|exact S]).
  exists e_twice, 0, (rep e_twice 0), 5, 107, e_twice_done, op, e_twice_then, e, (fun k => k ∈ secrets_about (n_ops e_twice_then) [5]).
  split; [exact R1|]. split; [exact E1|]. split; [exact U|]. split; [exact Q|]. split; [intros h'; apply remove_stranger; vm_compute; reflexivity|]. split; [exact S|].
  split; [apply one_b_sound; vm_compute; reflexivity|]. split; [apply fresh_b_sound; vm_compute; reflexivity|]. split; [apply fresh_secrets_b_sound; vm_compute; reflexivity|].
  split; [exact He|]. split; [apply sealed_after_b_sound; apply (head_check _ (fun e => sealed_after_b (n_ops e_twice_then) (g_ops (c_graph e_twice_done)) 5 (ec_op e)) e Eh); vm_compute; reflexivity|].
  split; [apply absent_b_sound; [apply (net_no_loops asc_h asc_r e_twice_then asc_h_order asc_r_order R2)|]; apply (head_check _ (fun e => absent_b (n_ops e_twice_then) 5 (ec_op e)) e Eh); vm_compute; reflexivity|].
  split.
  - intros s x o Hs Ex Ho. assert (Qa : about (so_op o) ∈ [5]); [|apply elem_of_list_singleton in Qa; exact Qa].
    revert s x o Hs Ex Ho. apply apart_b_sound. vm_compute. reflexivity.
  - apply (opened_b_sound _ e (secrets_about (n_ops e_twice_then) [5])); [auto|]. apply (head_check _ (fun e => opened_b e_twice_then e (secrets_about (n_ops e_twice_then) [5])) e Eh). vm_compute. reflexivity.
Qed.
Print Assumptions C54_added_twice_refuted.

Definition e_gone : network := r_run (r_base ++ [AUpdate 0 25 105 [61;62;63;64]; ARemove 2 4 106; AReceive 0 106]).
(** 3 removes 4 while 1 updates.  1 receives the removal, so 4 is no member to the knowledge
    of 1.  1 adds 4 again: the call returns without error, but there is no operation.  With
    1's next update the tree is brought up to date, and 4 is not in it. *)
Theorem C54_addition_ignored_refuted :
  exists n r c m pk h k u rng c' s op rest, net_reachable asc_h asc_r n /\ n_reps n !! r = Some c /\ n_ops n !! h = None /\
    ~ member (g_ops (c_graph c)) m /\ cgka_add (asc_h r) (asc_r r) c m pk h = (c, Ok None) /\
    cgka_update (asc_h r) (asc_r r) c k u rng = (c', Ok (s, op, rest)) /\ contains_id (c_tree c') m = false.
Proof.
  assert (R1 : net_reachable asc_h asc_r e_gone) by (apply r_run_reachable; vm_compute; reflexivity).
  assert (E1 : n_reps e_gone !! 0 = Some (rep e_gone 0)) by (apply rep_some; vm_compute; reflexivity).
  destruct (update_without (asc_h 0) (asc_r 0) (rep e_gone 0) 4 28 108 [71;72;73;74;75;76;77;78]) as (c' & s & op & rest & Eu & Q); [vm_compute; reflexivity|].
  exists e_gone, 0, (rep e_gone 0), 4, 15, 107, 28, 108, [71;72;73;74;75;76;77;78], c', s, op, rest. split; [exact R1|]. split; [exact E1|]. split; [vm_compute; reflexivity|].
  split; [apply gone_b_sound; [intros x; apply (no_loops asc_h asc_r asc_h_order asc_r_order e_gone R1 0 (rep e_gone 0) x E1)|vm_compute; reflexivity]|].
  split; [apply add_known; vm_compute; reflexivity|]. split; [exact Eu|exact Q].
Qed.
Print Assumptions C54_addition_ignored_refuted.
