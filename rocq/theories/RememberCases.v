(** The client of [QueryCases] from the addition of individual 3 to the team on, and what is not remembered. *)
From Coq Require Import Arith Lia.
From stdpp Require Import base list gmap relations.
From Verif Require Import ResModel KeysModel TreeModel TreeSpec TreeRun OpsModel CgkaModel.
From Verif Require Import AccessModel GroupModel CgkaSpec GroupSpec GroupTransitive GroupPropsProofs GroupExamples PrekeyModel HiveModel HiveSpec HiveExamples SyncModel.
From Verif Require Import DocModel DocSpec DocExamples TransactModel ArriveModel SettleSpec SettleProps SettleCases QueryCases RememberModel RememberSpec RememberProps.

Notation lq := (later asc hord rord pks mentions Q_said).
Lemma q_later : lq q3 q5.
Proof.
  eapply rtc_l; [|eapply rtc_l; [|apply rtc_refl]].
  - eapply (mv_add asc hord rord pks mentions Q_said q3 9 3 Edit 0 94 (digests 30)); [|apply surjective_pairing]. intros o Q. apply qsaidb_ok. refine (only_adds_ok q3 9 3 Edit 0 94 _ o _ Q). vm_compute. reflexivity.
  - eapply (mv_revoke asc hord rord pks mentions Q_said q4 9 3 false 0 [95; 96; 97] (digests 35)); [|apply surjective_pairing]. intros o Q. apply qsaidb_ok. refine (only_revokes_ok q4 9 3 false 0 [95; 96; 97] _ o _ Q). vm_compute. reflexivity.
Qed.
Lemma q4_later : lq q4 q5.
Proof.
  eapply rtc_l; [|apply rtc_refl].
  eapply (mv_revoke asc hord rord pks mentions Q_said q4 9 3 false 0 [95; 96; 97] (digests 35)); [|apply surjective_pairing]. intros o Q. apply qsaidb_ok. refine (only_revokes_ok q4 9 3 false 0 [95; 96; 97] _ o _ Q). vm_compute. reflexivity.
Qed.
Example C64_kept_case : has_op q5 (MD g_three) /\ has_op q5 (MD q_three) /\ is_Some (h_groups q5 !! 7) /\ is_Some (h_docs q5 !! 9) /\ is_Some (cgka_of q5 9).
Proof.
  destruct (C64_kept asc hord rord pks mentions Q_said asc_some q_proper q3 q5 q3_mixed q_later) as [R _]. destruct (C64_kept asc hord rord pks mentions Q_said asc_some q_proper q4 q5 q4_mixed q4_later) as [R' _].
  split; [apply (rm_ops _ _ R); vm_compute; reflexivity|]. split; [apply (rm_ops _ _ R'); vm_compute; reflexivity|].
  split; [apply (rm_groups _ _ R)|split; [apply (rm_docs _ _ R)|apply (rm_keys _ _ R)]]; apply (bool_decide_unpack _); vm_compute; exact I.
Qed.
Example C64_lookup_case : get_membership_operation q5 93 = Some (MD g_three) /\ get_membership_operation q5 95 = Some (MR q_gone) /\ get_membership_operation q5 96 = None.
Proof. split; [|split]; vm_compute; reflexivity. Qed.
(** Individual 3 keeps the place in the team while being removed from the document. *)
Example C64_member_case : exists g, has_group q5 7 g /\ holds g g_three.
Proof.
  refine (C64_member_until_revoked asc hord rord pks mentions Q_said asc_some q_proper q3 q5 g_three q3_mixed q_later _ (q_orderable _) _).
  - vm_compute. reflexivity.
  - intros t r Ht [B _]. apply q_revoked in B as ->. intros E. vm_compute in Ht. repeat (apply elem_of_cons in Ht as [-> |Ht]; [vm_compute in E; discriminate E|]). inversion Ht.
Qed.
(** The revocation goes on to hold when the client receives more: here the very delegation once more. *)
Definition q6 := (rcv q5 (EDlg (SDlg 94 1 3 Edit (Some 91) [] 0 true))).1.
Lemma q6_later : lq q5 q6.
Proof.
  eapply rtc_l; [|apply rtc_refl]. eapply (mv_receive asc hord rord pks mentions Q_said q5); [|apply surjective_pairing]. intros o Q. apply q_receivable_ok. refine (only_stands_ok q5 _ _ o _ Q). vm_compute. reflexivity.
Qed.
Lemma q6_revs : map_to_list (h_revs q6) = [(95, q_gone)].
Proof. vm_compute. reflexivity. Qed.
Lemma q6_revoked r : has_op q6 (MR r) -> r = q_gone.
Proof. cbn. rewrite (one_entry _ _ _ q6_revs). intros E. apply lookup_singleton_Some in E as [_ <-]. reflexivity. Qed.
Lemma q6_same o : has_op q6 o -> has_op q5 o.
Proof.
  destruct o as [d|r]; unfold has_op; [|intros E; rewrite (q6_revoked r E); vm_compute; reflexivity].
  assert (E : map_to_list (h_dlgs q6) = map_to_list (h_dlgs q5)) by (vm_compute; reflexivity). rewrite (list_maps _ _ E). auto.
Qed.
Example C64_revoked_case g : has_group q6 9 g -> ~ holds g q_three.
Proof.
  refine (proj2 (C64_revoked_for_good asc hord rord pks mentions Q_said asc_some q_proper q5 q6 q_gone q5_mixed q6_later _ _ _ _) g).
  - vm_compute. reflexivity.
  - destruct (q_orderable 9) as (f & A & B). exists f. split; [intros o p [X E] D; apply (A o p); [split; [apply q6_same, X|exact E]|exact D]|].
    intros d p r [X E] [Y F]. apply B; (split; [apply q6_same; assumption|assumption]).
  - intros r r' [A _] [B _] _. rewrite (q6_revoked r A), (q6_revoked r' B). reflexivity.
  - intros t r Ht [[B _] N]. apply q6_revoked in B as ->. congruence.
Qed.

(** ** What is not so *)

(** Finding: a client that has heard of a group's key as of an individual (a prekey operation signed by it, say) and then receives the first delegation of
    the group forgets both: the individual is dropped and the group made of it is not filed (keyhive.rs 1637-1646). *)
Definition z0 := (register_individual (start 3) 7 (individual_new (KOp 7 (AddKey (pub 77)) 7 (AddKey (pub 77))))).1.
Definition z1 := rcv z0 e_root.
Theorem C64_promotion_refuted : ~ (forall h x h', receive_event asc mentions do_doc do_ok (doc_receive hord rord) h x = (h', HDone) -> forall i, known_agent h i = true -> known_agent h' i = true).
Proof.
  intros H. assert (A : z1.2 = HDone) by (vm_compute; reflexivity). assert (B : known_agent z0 7 = true) by (vm_compute; reflexivity). assert (C : known_agent z1.1 7 = false) by (vm_compute; reflexivity).
  assert (E : receive_event asc mentions do_doc do_ok (doc_receive hord rord) z0 e_root = (z1.1, HDone)) by (rewrite <- A; apply surjective_pairing).
  rewrite (H z0 e_root z1.1 E 7 B) in C. discriminate.
Qed.
(** Finding: [register_group] looks for the subject of the delegation and files the group under its issuer (keyhive.rs 434-463).  With a
    delegation that is not the first of its group it says that it registered the group, which is unknown afterwards; there is a group instead under the
    identifier of the individual that signed; and the next call says so again. *)
Theorem C64_register_group_refuted : ~ (forall (h : client) d h', register_group asc h d = Some (h', true) -> is_Some (h_groups h' !! d_subject d)) /\
  ~ (forall (h : client) d h' i, register_group asc h d = Some (h', true) -> i <> d_subject d -> get_peer h' i = get_peer h i).
Proof.
  assert (A : match register_group asc (start 3) g_three with Some (h', b) => b && bool_decide (h_groups h' !! 7 = None) && match get_peer h' 1 with Some (PGroup _ _) => true | _ => false end | None => false end = true) by (vm_compute; reflexivity).
  assert (B : match get_peer (start 3) 1 with Some (PGroup _ _) => false | _ => true end = true) by (vm_compute; reflexivity).
  destruct (register_group asc (start 3) g_three) as [[h' b]|] eqn:E; [|discriminate A]. apply andb_prop in A as [A C]. apply andb_prop in A as [A D]. subst b. apply bool_decide_eq_true in D. split; intros H.
  - destruct (H _ _ _ E) as [g G]. change (d_subject g_three) with 7 in G. congruence.
  - assert (N : 1 <> d_subject g_three) by discriminate. pose proof (H _ _ _ 1 E N) as X. rewrite X in C. destruct (get_peer (start 3) 1) as [[| |]|]; discriminate.
Qed.
(** Finding: [register_individual] does not look for groups and documents (keyhive.rs 419-431): it says that it registered somebody who
    cannot be looked up, because the group of that identifier comes first. *)
Theorem C64_register_individual_refuted : ~ (forall (h : client) i x h', register_individual h i x = (h', true) -> get_peer h' i = Some (PIndie x)).
Proof.
  intros H. set (x := individual_new (KOp 7 (AddKey (pub 77)) 7 (AddKey (pub 77)))). assert (A : (register_individual a1 7 x).2 = true) by (vm_compute; reflexivity).
  assert (B : match get_peer (register_individual a1 7 x).1 7 with Some (PIndie _) => false | _ => true end = true) by (vm_compute; reflexivity).
  assert (E : register_individual a1 7 x = ((register_individual a1 7 x).1, true)) by (rewrite <- A; apply surjective_pairing). rewrite (H a1 7 x _ E) in B. discriminate.
Qed.
Example C64_register_case : (register_peer (start 1) 55 (PIndie (individual_new (KOp 55 (AddKey (pub 25)) 55 (AddKey (pub 25)))))).2 = true /\ (register_peer a1 7 (PIndie (individual_new (KOp 7 (AddKey (pub 77)) 7 (AddKey (pub 77)))))).2 = false.
Proof. split; vm_compute; reflexivity. Qed.
Example C64_register_group_case : match register_group asc (start 3) g_root with Some (h', b) => b && bool_decide (dom (h_groups h') = {[ 7 ]}) | None => false end = true.
Proof. vm_compute. reflexivity. Qed.
Print Assumptions C64_promotion_refuted.
Print Assumptions C64_register_group_refuted.
Print Assumptions C64_register_individual_refuted.
