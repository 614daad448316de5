(** Groups in which operations are made in turn: who cannot read (C49). *)
From stdpp Require Import base list gmap relations.
From Verif Require Import ResModel KeysModel TreeModel TreeSpec TreeOps TreeProofs TreeInv TreeRun SecrecySpec SecrecyTime OpsModel OpsSpec CgkaModel CgkaSpec NetSpec NetProofs NetRun TurnSpec TurnRun TurnSecretSpec TurnSecretProofs TurnSecretRun.

(** ** On one tree.  The key of a moment stays closed to those who are not members at that moment,
    even if they are added, update and publish later. *)
Theorem C49_key_of_a_moment id pk ops0 ops1 t0 t pcs0 pcs (C : member_id -> Prop) (K : secret_key -> Prop) :
  reachable id pk ops0 t0 pcs0 -> reachable id pk (ops0 ++ ops1) t pcs ->
  fresh_history (OAdd id pk :: ops0 ++ ops1) ->
  (forall m, C m -> contains_id t0 m = false) ->
  (forall s, K s -> exists op, op ∈ OAdd id pk :: ops0 ++ ops1 /\ C (op_member op) /\ op_secret op s) ->
  (forall m p, node_key_for_id t0 m = Ok (SKey (pub p)) -> ~ K p) ->
  forall m p sks sks' root, node_key_for_id t0 m = Ok (SKey (pub p)) ->
    (forall q s, sks !! q = Some s -> pub s = q) -> sks !! pub p = Some p ->
    decrypt_tree_secret t0 m sks = (sks', Ok root) ->
    ~ derivable K (published pcs) root.
Proof. exact (absent_locked_out_lemma id pk ops0 ops1 t0 t pcs0 pcs C K). Qed.
Print Assumptions C49_key_of_a_moment.

(** ** The ledger.  Every run has one, with one entry for each operation. *)
Theorem C49_every_run_logged ho ro n :
  (forall i, some_order (ho i)) -> (forall i, some_order (ro i)) ->
  turns ho ro n -> exists led, logged ho ro n led.
Proof. intros HH HR. exact (turns_logged ho ro HH HR n). Qed.
Print Assumptions C49_every_run_logged.

Theorem C49_ledger_names ho ro n led :
  (forall i, some_order (ho i)) -> (forall i, some_order (ro i)) ->
  logged ho ro n led -> NoDup (map fst led) /\ forall h, is_Some (n_ops n !! h) <-> h ∈ map fst led.
Proof. intros HH HR. exact (ledger_names ho ro HH HR n led). Qed.
Print Assumptions C49_ledger_names.

(** ** Outsiders.  People who are not members at the operation a message was sealed under, all
    together, with every secret that ever came with an operation about one of them - before and
    after that operation - and everything that was ever sent, cannot open the message. *)
Theorem C49_outsiders_locked_out ho ro n led e g (C : member_id -> Prop) (K : secret_key -> Prop) :
  (forall i, some_order (ho i)) -> (forall i, some_order (ro i)) ->
  logged ho ro n led -> fresh_history (map snd led) -> e ∈ n_cts n -> roster (n_ops n) (ec_op e) g ->
  (forall m, C m -> g !! m = None) -> (forall s, K s -> entered_for C led s) ->
  (forall m p, g !! m = Some (pub p) -> ~ K p) ->
  closed_to K (n_ops n) e.
Proof. intros HH HR. exact (outsiders_lemma ho ro HH HR n led e g C K). Qed.
Print Assumptions C49_outsiders_locked_out.

(** ** Other times.  Secrets - of anybody - that were overridden when a message was sealed, and
    secrets made later, together with everything that was ever sent, do not open the message:
    updating heals a member, and a member who is overheard later loses no earlier message. *)
Theorem C49_other_times_locked_out ho ro n led e g (K : secret_key -> Prop) led0 op led1 :
  (forall i, some_order (ho i)) -> (forall i, some_order (ro i)) ->
  logged ho ro n led -> fresh_history (map snd led) -> e ∈ n_cts n -> roster (n_ops n) (ec_op e) g ->
  led = led0 ++ (ec_op e, op) :: led1 ->
  (forall s, K s -> outdated (led0 ++ [(ec_op e, op)]) s \/ entered led1 s) ->
  (forall m p, g !! m = Some (pub p) -> ~ K p) ->
  closed_to K (n_ops n) e.
Proof. intros HH HR. exact (other_times_lemma ho ro HH HR n led e g K led0 op led1). Qed.
Print Assumptions C49_other_times_locked_out.

(** ** Members.  The counterpart: with the secret of the leaf of any one of the members at that
    operation and what was sent the key can be derived. *)
Theorem C49_members_open ho ro n led e g m p (K : secret_key -> Prop) :
  (forall i, some_order (ho i)) -> (forall i, some_order (ro i)) ->
  logged ho ro n led -> e ∈ n_cts n -> roster (n_ops n) (ec_op e) g ->
  g !! m = Some (pub p) -> K p ->
  exists k, derivable K (seen (n_ops n)) k /\
    content_decrypt e (AppKey k (ec_preds e) (ec_ref e)) = Some (ct_plain (ec_cipher e)).
Proof. intros HH HR. exact (members_lemma ho ro HH HR n led e g m p K). Qed.
Print Assumptions C49_members_open.

(** ** The hypotheses are met *)

(** Alice (1) adds Bob (2) and Carol (3) and seals a message; Bob removes Carol, updates and seals
    another; then Carol is added again and Alice seals a third. *)
Definition sdemo_script : list ltact := [inl (AAdd 0 2 12 101); inl (AAdd 0 3 13 102);
  inl (AEncrypt 0 7 [1;2;3] [] 21 103 [31;32;33;34;35;36;37;38]); Datatypes.inr (1, 2, [12]);
  inl (AReceive 1 101); inl (AReceive 1 102); inl (AReceive 1 103); inl (ARemove 1 3 105);
  inl (AUpdate 1 52 106 [61;62;63;64;65;66;67;68]); inl (AEncrypt 1 9 [6] [] 23 107 [71;72;73;74;75;76]);
  inl (AReceive 0 105); inl (AReceive 0 106); inl (AAdd 0 3 14 108); inl (AEncrypt 0 8 [4;5] [] 22 109 [81;82;83;84;85;86;87;88])].
Definition sdemo_run : option (network * ledger) := lrun 1 11 100 [11] sdemo_script.
Definition sdemo : network := match sdemo_run with Some (n, _) => n | None => Net ∅ ∅ [] end.
Definition sdemo_led : ledger := match sdemo_run with Some (_, led) => led | None => [] end.
Example sdemo_led_is : sdemo_led = [(100, OAdd 1 11); (101, OAdd 2 12); (102, OAdd 3 13); (103, OUpdate 1 21 [31;32;33;34;35;36;37;38]); (105, ORemove 3);
  (106, OUpdate 2 52 [61;62;63;64;65;66;67;68]); (108, OAdd 3 14); (109, OUpdate 1 22 [81;82;83;84;85;86;87;88])].
Proof. vm_compute. reflexivity. Qed.
Lemma sdemo_logged : logged asc_h asc_r sdemo sdemo_led.
Proof.
  apply (lrun_logged 1 11 100 [11] sdemo_script). change (sdemo_run = Some (sdemo, sdemo_led)). unfold sdemo, sdemo_led. destruct sdemo_run as [[n led]|] eqn:E; [reflexivity|]. exfalso.
  assert (F : match sdemo_run with Some _ => true | None => false end = true) by (vm_compute; reflexivity). rewrite E in F. discriminate.
Qed.
Example sdemo_fresh : fresh_history (map snd sdemo_led).
Proof.
  rewrite sdemo_led_is. split; [apply (bool_decide_unpack _); vm_compute; exact I|].
  intros op s Ho Ls. cbn [map snd] in Ho. rewrite !elem_of_cons, elem_of_nil in Ho.
  assert (F : forall x, bool_decide (x ∈ concat (map op_rng (map snd sdemo_led))) = false -> x ∉ concat (map op_rng (map snd sdemo_led))) by (intros x H; apply bool_decide_eq_false in H; exact H).
  rewrite sdemo_led_is in F.
  destruct Ho as [-> |[-> |[-> |[-> |[-> |[-> |[-> |[-> |[]]]]]]]]]; cbn in Ls; try (destruct Ls; fail); unfold pub in Ls; subst s; apply F; vm_compute; reflexivity.
Qed.
Example sdemo_msgs : map ec_op (n_cts sdemo) = [109; 106; 103].
Proof. vm_compute. reflexivity. Qed.
Example sdemo_rosters : roster (n_ops sdemo) 103 (<[1 := 21]> (<[3 := 13]> (<[2 := 12]> {[ 1 := 11 ]}))) /\
  roster (n_ops sdemo) 106 (<[2 := 52]> (delete 3 (<[1 := 21]> (<[3 := 13]> (<[2 := 12]> {[ 1 := 11 ]}))))).
Proof.
  assert (F : roster (n_ops sdemo) 100 {[ 1 := 11 ]}) by (apply ro_first; vm_compute; reflexivity).
  split; [apply (roster_along_ok (n_ops sdemo) [101; 102; 103] 100 {[ 1 := 11 ]}); [exact F|vm_compute; reflexivity]|].
  apply (roster_along_ok (n_ops sdemo) [101; 102; 103; 105; 106] 100 {[ 1 := 11 ]}); [exact F|vm_compute; reflexivity].
Qed.
(** The message Bob sealed is closed to Carol, with both the keys Carol was added with. *)
Example sdemo_carol_out e : e ∈ n_cts sdemo -> ec_op e = 106 -> closed_to (fun s => s = 13 \/ s = 14) (n_ops sdemo) e.
Proof.
  intros He Eo. eapply (C49_outsiders_locked_out asc_h asc_r sdemo sdemo_led e _ (fun m => m = 3)).
  - apply asc_h_order.
  - apply asc_r_order.
  - exact sdemo_logged.
  - exact sdemo_fresh.
  - exact He.
  - rewrite Eo. apply sdemo_rosters.
  - intros m ->. reflexivity.
  - intros s [-> | ->]; rewrite sdemo_led_is; [exists 102, (OAdd 3 13)|exists 108, (OAdd 3 14)]; (split; [rewrite !elem_of_cons; auto 12|]); (split; [reflexivity|left; reflexivity]).
  - intros m p Q [-> | ->]; unfold pub in Q; rewrite !lookup_insert_Some, lookup_delete_Some, !lookup_insert_Some, lookup_singleton_Some in Q; naive_solver.
Qed.
(** Also to somebody who learnt the secrets Alice and Bob had earlier and those Alice made later. *)
Example sdemo_healed e : e ∈ n_cts sdemo -> ec_op e = 106 -> closed_to (fun s => s = 11 \/ s = 12 \/ s = 22 \/ s = 81) (n_ops sdemo) e.
Proof.
  intros He Eo. eapply (C49_other_times_locked_out asc_h asc_r sdemo sdemo_led e _ _
    [(100, OAdd 1 11); (101, OAdd 2 12); (102, OAdd 3 13); (103, OUpdate 1 21 [31;32;33;34;35;36;37;38]); (105, ORemove 3)]
    (OUpdate 2 52 [61;62;63;64;65;66;67;68]) [(108, OAdd 3 14); (109, OUpdate 1 22 [81;82;83;84;85;86;87;88])]).
  - apply asc_h_order.
  - apply asc_r_order.
  - exact sdemo_logged.
  - exact sdemo_fresh.
  - exact He.
  - rewrite Eo. apply sdemo_rosters.
  - rewrite sdemo_led_is, Eo. reflexivity.
  - rewrite Eo. intros s [-> |[-> |[-> | ->]]].
    + left. exists 0, (OAdd 1 11). split; [reflexivity|]. split; [|left; reflexivity]. exists (OAdd 1 11), 3, (OUpdate 1 21 [31;32;33;34;35;36;37;38]). split; [reflexivity|]. split; [lia|]. split; [reflexivity|]. right. eauto.
    + left. exists 1, (OAdd 2 12). split; [reflexivity|]. split; [|left; reflexivity]. exists (OAdd 2 12), 5, (OUpdate 2 52 [61;62;63;64;65;66;67;68]). split; [reflexivity|]. split; [lia|]. split; [reflexivity|]. right. eauto.
    + right. exists 109, (OUpdate 1 22 [81;82;83;84;85;86;87;88]). split; [rewrite !elem_of_cons; auto|]. left. reflexivity.
    + right. exists 109, (OUpdate 1 22 [81;82;83;84;85;86;87;88]). split; [rewrite !elem_of_cons; auto|]. right. left.
  - intros m p Q HK. unfold pub in Q. rewrite !lookup_insert_Some, lookup_delete_Some, !lookup_insert_Some, lookup_singleton_Some in Q. naive_solver.
Qed.
(** Alice, whose leaf secret was 21 at that moment, can open it. *)
Example sdemo_alice_in e : e ∈ n_cts sdemo -> ec_op e = 106 -> exists k, derivable (fun s => s = 21) (seen (n_ops sdemo)) k /\
  content_decrypt e (AppKey k (ec_preds e) (ec_ref e)) = Some (ct_plain (ec_cipher e)).
Proof.
  intros He Eo. eapply (C49_members_open asc_h asc_r sdemo sdemo_led e _ 1 21).
  - apply asc_h_order.
  - apply asc_r_order.
  - exact sdemo_logged.
  - exact He.
  - rewrite Eo. apply sdemo_rosters.
  - reflexivity.
  - reflexivity.
Qed.
