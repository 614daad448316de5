(** Networks whose changes of members take turns, with concurrent updates: who cannot read (C53). *)
From Coq Require Import Arith.
From stdpp Require Import base list gmap relations.
From Verif Require Import ResModel KeysModel TreeModel OpsModel OpsSpec CgkaModel CgkaSpec NetSpec NetProofs NetInv NetRun SecrecySpec TurnSecretSpec
  GrowSpec ReadSpec ReadPropsProofs ReadProps ShutSpec ShutPropsProofs.

Section net.
Context (ho : nat -> gset digest -> list digest) (ro : nat -> gset (member_id * nat) -> list (member_id * nat)).
Context (HH : forall i, some_order (ho i)) (HR : forall i, some_order (ro i)).

(** Whoever has none of the secrets that were in force when a message was sealed cannot open
    it, whatever else that person has - secrets of anybody that were replaced before, that
    were made later or by somebody who did not know - and everything that was ever sent. *)
Theorem C53_message_closed n e (K : secret_key -> Prop) : net_reachable ho ro n -> orderly (n_ops n) -> fresh_secrets (n_ops n) -> e ∈ n_cts n ->
  (forall s x o, K s -> n_ops n !! x = Some o -> s ∈ secrets (so_op o) -> ~ in_force (n_ops n) (ec_op e) x) ->
  closed_to K (n_ops n) e.
Proof. intros R Od. exact (message_shut ho ro HH HR n R Od e K). Qed.

(** The same for the key that an update puts at the root. *)
Theorem C53_key_closed n u o k (K : secret_key -> Prop) : net_reachable ho ro n -> orderly (n_ops n) -> fresh_secrets (n_ops n) ->
  n_ops n !! u = Some o -> is_update (so_op o) = true -> top_key (so_op o) = Some k ->
  (forall s x o, K s -> n_ops n !! x = Some o -> s ∈ secrets (so_op o) -> ~ in_force (n_ops n) u x) ->
  ~ derivable K (seen (n_ops n)) k.
Proof. intros R Od. exact (update_shut ho ro HH HR n R Od u o k K). Qed.

(** People who were no members when a message was sealed, all together, with everything that
    came with operations about them - before and after - cannot open it. *)
Theorem C53_outsiders_locked_out n e (C : member_id -> Prop) (K : secret_key -> Prop) : net_reachable ho ro n -> orderly (n_ops n) -> fresh_secrets (n_ops n) -> e ∈ n_cts n ->
  (forall m, C m -> ~ member_at (n_ops n) m (ec_op e)) ->
  (forall s x o, K s -> n_ops n !! x = Some o -> s ∈ secrets (so_op o) -> C (about (so_op o))) ->
  closed_to K (n_ops n) e.
Proof. intros R Od. exact (outsiders_shut ho ro HH HR n R Od e C K). Qed.

(** The counterpart: the key of one member that was in force, and what was sent, is enough. *)
Theorem C53_members_open n e x o m p (K : secret_key -> Prop) : net_reachable ho ro n -> orderly (n_ops n) -> e ∈ n_cts n ->
  in_force (n_ops n) (ec_op e) x -> n_ops n !! x = Some o -> gives_key (so_op o) m (pub p) -> K p ->
  exists k, derivable K (seen (n_ops n)) k /\ content_decrypt e (AppKey k (ec_preds e) (ec_ref e)) = Some (ct_plain (ec_cipher e)).
Proof. intros R Od. exact (message_opens ho ro HH HR n R Od e x o m p K). Qed.
End net.
Print Assumptions C53_message_closed.
Print Assumptions C53_key_closed.
Print Assumptions C53_outsiders_locked_out.
Print Assumptions C53_members_open.

(** ** A case.  Members 1, 3 and 4 updated without knowledge of each other; then 4 gathers all
    and seals a message.  Somebody has the keys that 1, 3 and 4 were added with and all that
    came with their other updates ([stolen]), and learns from them all the keys of 1's
    update, which was made at the same time as those that replace the others - the
    message stays closed.  The key 2 was added with opens it. *)
Definition w_healed : network := r_run (r_base ++ r_race ++ [AUpdate 3 26 109 [81;82;83;84]; AEncrypt 3 9 [4;5;6] [] 0 140 []]).
Definition stolen : list secret_key := [11; 13; 14; 21; 23; 24; 31; 32; 33; 34; 35; 51; 52; 53; 54; 61; 62; 63; 64].
Lemma r_run_no_loops l : (match run 1 11 100 l with Some _ => true | None => false end) = true -> forall x, ~ came_before (n_ops (r_run l)) x x.
Proof. intros E. eapply (net_no_loops asc_h asc_r); [exact asc_h_order|exact asc_r_order|apply r_run_reachable, E]. Qed.
Definition message_of (n : network) (h : digest) (e : encrypted_content) : Prop := e ∈ n_cts n /\ ec_op e = h.
Example w_healed_messages : map (fun e => (ec_op e, ct_plain (ec_cipher e))) (n_cts w_healed) = [(109, [4;5;6]); (105, [1;2;3])].
Proof. vm_compute. reflexivity. Qed.
Example w_healed_meets : net_reachable asc_h asc_r w_healed /\ orderly (n_ops w_healed) /\ fresh_secrets (n_ops w_healed) /\
  (forall s x o, s ∈ stolen -> n_ops w_healed !! x = Some o -> s ∈ secrets (so_op o) -> ~ in_force (n_ops w_healed) 109 x) /\
  (top_key ∘ so_op) <$> n_ops w_healed !! 105 = Some (Some 42) /\ (top_key ∘ so_op) <$> n_ops w_healed !! 109 = Some (Some 82) /\
  (forall s, s ∈ [42; 71; 72] -> derivable (fun k => k ∈ stolen) (seen (n_ops w_healed)) s).
Proof.
  split; [apply r_run_reachable; vm_compute; reflexivity|]. split; [apply orderly_b_sound; vm_compute; reflexivity|]. split; [apply fresh_secrets_b_sound; vm_compute; reflexivity|].
  split; [apply shut_b_sound; vm_compute; reflexivity|]. split; [vm_compute; reflexivity|]. split; [vm_compute; reflexivity|].
  intros s Hs. apply (spreads_sound _ _ 8 stolen); [intros k Hk; apply derivable_known, Hk|]. apply elem_b_spec. apply elem_of_list_In in Hs.
  assert (Q : forallb (elem_b (spreads 8 (all_sealed (n_ops w_healed)) stolen)) [42; 71; 72] = true) by (vm_compute; reflexivity). rewrite forallb_forall in Q. exact (Q s Hs).
Qed.
Example w_healed_closed : forall e, message_of w_healed 109 e -> closed_to (fun k => k ∈ stolen) (n_ops w_healed) e.
Proof.
  intros e [He Eh]. destruct w_healed_meets as (R & Od & FS & Sh & _). apply (C53_message_closed asc_h asc_r asc_h_order asc_r_order w_healed e _ R Od FS He). rewrite Eh. exact Sh.
Qed.
Example w_healed_key : ~ derivable (fun k => k ∈ stolen) (seen (n_ops w_healed)) 82.
Proof.
  destruct w_healed_meets as (R & Od & FS & Sh & _ & Tk & _). destruct (n_ops w_healed !! 109) as [o|] eqn:E; [|discriminate]. injection Tk as Tk.
  apply (C53_key_closed asc_h asc_r asc_h_order asc_r_order w_healed 109 o 82 _ R Od FS E); [destruct (so_op o); [discriminate..|reflexivity]|exact Tk|exact Sh].
Qed.
(** The key that 2 was added with opens it. *)
Lemma given_gives op id k : given_keys op id = [k] -> gives_key op id k.
Proof.
  destruct op as [id' pk i ps qs| |id' pc ps]; cbn; [destruct (Nat.eqb_spec id' id) as [-> |]; intros Q; [injection Q as ->; auto|discriminate]|discriminate|].
  destruct (Nat.eqb_spec (pc_leaf_id pc) id) as [-> |]; intros Q; [rewrite Q; split; [reflexivity|left]|discriminate].
Qed.
Example w_healed_opens : forall e, message_of w_healed 109 e -> exists k, derivable (fun s => s = 12) (seen (n_ops w_healed)) k /\ is_Some (content_decrypt e (AppKey k (ec_preds e) (ec_ref e))).
Proof.
  intros e [He Eh]. destruct w_healed_meets as (R & Od & _). destruct (n_ops w_healed !! 101) as [o|] eqn:E.
  - assert (Q : (fun o => given_keys (so_op o) 2) <$> n_ops w_healed !! 101 = Some [12]) by (vm_compute; reflexivity).
    rewrite E in Q. apply Some_inj in Q.
    destruct (C53_members_open asc_h asc_r asc_h_order asc_r_order w_healed e 101 o 2 12 (fun s => s = 12) R Od He) as (k & Dk & Ok); [rewrite Eh; apply in_force_b_sound; vm_compute; reflexivity|exact E| |reflexivity|].
    + exact (given_gives _ _ _ Q).
    + exists k. split; [exact Dk|]. rewrite Ok. eauto.
  - assert (Qa : (is_add ∘ so_op) <$> n_ops w_healed !! 101 = Some true) by (vm_compute; reflexivity). rewrite E in Qa. discriminate.
Qed.
(** The message sealed under 1's update is closed to those who know only what came later or
    was made at the same time, and replaced keys of 1. *)
Definition overheard : list secret_key := [11; 21; 31; 32; 23; 51; 52; 24; 61; 62; 25; 71; 72; 26; 81; 82].
Example w_race_closed : forall e, message_of w_healed 105 e -> closed_to (fun k => k ∈ overheard) (n_ops w_healed) e.
Proof.
  intros e [He Eh]. destruct w_healed_meets as (R & Od & FS & _). apply (C53_message_closed asc_h asc_r asc_h_order asc_r_order w_healed e _ R Od FS He). rewrite Eh.
  apply shut_b_sound. vm_compute. reflexivity.
Qed.

(** 4 is removed; 1 and 3 update without knowledge of each other, 1 gathers and seals a message.
    Then 4 is added again and updates.  With all that came with operations about 4 the message
    stays closed.  3's leaf now is alone in its half, so 3 makes extra keys ([thrown_keys]). *)
Definition w_absent : network := r_run (r_base ++ [ARemove 0 4 106; AReceive 2 106; AReceive 3 106; AUpdate 0 23 107 [41;42;43;44]; AUpdate 2 24 108 [51;52;53;54]; AReceive 0 108;
  AUpdate 0 25 109 [61;62;63;64]; AEncrypt 0 7 [1;2;3] [] 0 130 []; AReceive 2 107; AReceive 2 109; AAdd 2 4 34 110; AReceive 3 107; AReceive 3 108; AReceive 3 109; AOwner 3 4 [34]; AReceive 3 110; AUpdate 3 27 111 [71;72;73;74]]).
Example w_absent_meets : net_reachable asc_h asc_r w_absent /\ orderly (n_ops w_absent) /\ fresh_secrets (n_ops w_absent) /\ map ec_op (n_cts w_absent) = [109] /\
  ~ member_at (n_ops w_absent) 4 109 /\ member_at (n_ops w_absent) 3 109 /\ secrets_about (n_ops w_absent) [4] ≡ₚ [14; 34; 27; 71; 72] /\
  (thrown_keys ∘ so_op) <$> n_ops w_absent !! 108 = Some [52].
Proof.
  split; [apply r_run_reachable; vm_compute; reflexivity|]. split; [apply orderly_b_sound; vm_compute; reflexivity|]. split; [apply fresh_secrets_b_sound; vm_compute; reflexivity|].
  split; [vm_compute; reflexivity|]. split; [apply absent_b_sound; [apply r_run_no_loops|]; vm_compute; reflexivity|]. split; [apply member_at_b_sound; [apply r_run_no_loops|]; vm_compute; reflexivity|].
  split; [|vm_compute; reflexivity]. apply (bool_decide_unpack _). vm_compute. exact I.
Qed.
Example w_absent_closed : forall e, message_of w_absent 109 e -> closed_to (fun k => k ∈ secrets_about (n_ops w_absent) [4]) (n_ops w_absent) e.
Proof.
  intros e [He Eh]. destruct w_absent_meets as (R & Od & FS & _ & Ab & _).
  apply (C53_outsiders_locked_out asc_h asc_r asc_h_order asc_r_order w_absent e (fun m => m ∈ [4]) _ R Od FS He); [intros m Hm; apply elem_of_list_singleton in Hm as ->; rewrite Eh; exact Ab|].
  apply apart_b_sound. vm_compute. reflexivity.
Qed.
