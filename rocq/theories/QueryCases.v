(** A concrete client: individual 1 makes the team 7 and the document 9, whose members are the individual and the team; adds individual 3 to the team and to the
    document, and removes individual 3 from the document again. *)
From Coq Require Import Arith Lia.
From stdpp Require Import base list gmap relations.
From Verif Require Import ResModel KeysModel TreeModel TreeSpec TreeRun OpsModel CgkaModel.
From Verif Require Import AccessModel GroupModel CgkaSpec GroupSpec GroupTransitive GroupPropsProofs GroupExamples PrekeyModel HiveModel HiveSpec HiveExamples SyncModel.
From Verif Require Import DocModel DocSpec DocExamples TransactModel ArriveModel SettleSpec SettleProps SettleCases QueryModel QuerySpec QueryProps.

Definition q_three := dl 94 1 3 Edit (Some d_root).
Definition q_gone := Rev 95 1 q_three (Some q_three) 0.
Definition q_said : list mop := [MD g_root; MD d_root; MD d_team; MD g_three; MD q_three; MR q_gone].
Definition Q_said (o : mop) : Prop := o ∈ q_said.
Lemma q_proper : proper Q_said.
Proof.
  split; [split|].
  - intros a b A B E. unfold Q_said, q_said in A, B. repeat (apply elem_of_cons in A as [-> |A]; [repeat (apply elem_of_cons in B as [-> |B]; [first [reflexivity|discriminate]|]); inversion B|]). inversion A.
  - intros i a b [A SA] [B SB] E1 E2 E3 E4 E5. rewrite <- SA in SB. clear SA. unfold Q_said, q_said in A, B.
    repeat (apply elem_of_cons in A as [A|A]; [try discriminate A; injection A as ->; repeat (apply elem_of_cons in B as [B|B]; [try discriminate B; injection B as ->; first [reflexivity|discriminate|vm_compute in SB; discriminate SB]|]); inversion B|]). inversion A.
  - intros o p A Hp. unfold Q_said, q_said in A.
    repeat (apply elem_of_cons in A as [-> |A]; [cbn in Hp; repeat (apply elem_of_cons in Hp as [-> |Hp]; [reflexivity|]); inversion Hp|]). inversion A.
Qed.
Notation mq := (mixed asc hord rord pks mentions Q_said).
Definition qsaidb (o : mop) : bool := existsb (is_op o) q_said.
Lemma qsaidb_ok o : qsaidb o = true -> Q_said o.
Proof. intros E. apply existsb_exists in E as (y & Hy & E). apply is_op_ok in E as ->. apply elem_of_list_In, Hy. Qed.

Definition q1 := (gg (start 1) 7 [(1, 90)] 0).1.
Definition q2 := (gen q1 9 [(1, 91); (7, 92)] 0 40 1 (seq 2 10) 15 (seq 50 10)).1.
Definition q3 := (addm q2 7 3 Read 0 93 (digests 20)).1.
Definition q4 := (addm q3 9 3 Edit 0 94 (digests 30)).1.
Definition q5 := (revm q4 9 3 false 0 [95; 96; 97] (digests 35)).1.

Lemma q1_mixed : mq q1.
Proof.
  eapply (mx_group asc hord rord pks mentions Q_said (start 1) 7 [(1, 90)] 0); [apply mx_start; reflexivity|apply (bool_decide_unpack _); vm_compute; exact I|vm_compute; discriminate|discriminate|sets| |apply surjective_pairing].
  intros x Hx. apply elem_of_list_singleton in Hx as ->. left.
Qed.
Lemma q2_mixed : mq q2.
Proof.
  eapply (mx_doc asc hord rord pks mentions Q_said q1 9 [(1, 91); (7, 92)] 0 40 1 (seq 2 10) 15 (seq 50 10)); [exact q1_mixed|apply (bool_decide_unpack _); vm_compute; exact I|vm_compute; discriminate|discriminate|sets| |apply surjective_pairing].
  intros x Hx. apply elem_of_cons in Hx as [-> |Hx]; [apply qsaidb_ok; vm_compute; reflexivity|]. apply elem_of_list_singleton in Hx as ->. apply qsaidb_ok. vm_compute. reflexivity.
Qed.
Lemma q3_mixed : mq q3.
Proof.
  eapply (mx_add asc hord rord pks mentions Q_said q2 7 3 Read 0 93 (digests 20)); [exact q2_mixed| |apply surjective_pairing]. intros o Q. apply qsaidb_ok.
  refine (only_adds_ok q2 7 3 Read 0 93 _ o _ Q). vm_compute. reflexivity.
Qed.
Lemma q4_mixed : mq q4.
Proof.
  eapply (mx_add asc hord rord pks mentions Q_said q3 9 3 Edit 0 94 (digests 30)); [exact q3_mixed| |apply surjective_pairing]. intros o Q. apply qsaidb_ok.
  refine (only_adds_ok q3 9 3 Edit 0 94 _ o _ Q). vm_compute. reflexivity.
Qed.
Lemma q5_mixed : mq q5.
Proof.
  eapply (mx_revoke asc hord rord pks mentions Q_said q4 9 3 false 0 [95; 96; 97] (digests 35)); [exact q4_mixed| |apply surjective_pairing]. intros o Q. apply qsaidb_ok.
  refine (only_revokes_ok q4 9 3 false 0 [95; 96; 97] _ o _ Q). vm_compute. reflexivity.
Qed.

(** The answers: as maps written out. *)
Definition listed (m : option (gmap ident access)) : option (list (ident * access)) := (fun m : gmap ident access => omap (fun k => pair k <$> m !! k) (asc (dom m))) <$> m.
Example C63_members_case : listed (reachable_members asc q4 9) = Some [(1, Admin); (3, Edit); (7, Admin)] /\ listed (reachable_members asc q5 9) = Some [(1, Admin); (3, Read); (7, Admin)].
Proof. split; vm_compute; reflexivity. Qed.
Example C63_docs_case : listed (docs_reachable_by asc q5 3) = Some [(9, Read)] /\ listed (docs_reachable_by asc q5 4) = Some [] /\ listed (reachable_docs asc q5) = Some [(9, Admin)].
Proof. split; [|split]; vm_compute; reflexivity. Qed.
Example C63_membered_case : listed (membered_reachable_by asc q5 3) = Some [(7, Read); (9, Read)].
Proof. vm_compute. reflexivity. Qed.
Example C63_access_case : access_for_doc asc q5 3 9 = Some (Some Read) /\ access_for_doc asc q5 4 9 = Some None /\ access_for_doc asc q5 3 7 = Some None /\ best_access_for_doc asc q5 3 9 = Some (Some Read).
Proof. split; [|split; [|split]]; vm_compute; reflexivity. Qed.
Example C63_capabilities_case : listed (doc_member_capabilities asc q5 9) = Some [(1, Admin); (3, Read)].
Proof. vm_compute. reflexivity. Qed.
Lemma q5_doc : is_Some (h_docs q5 !! 9).
Proof. apply (bool_decide_unpack _). vm_compute. exact I. Qed.
(** What the theorems say of that client: individual 3 has access to the document, through the team. *)
Example C63_has_access_case : has_access q5 9 3 /\ ~ has_access q5 9 4.
Proof.
  destruct (C63_docs asc hord rord pks mentions Q_said asc_some q_proper q5 3 q5_mixed) as (m & E & _ & _ & K).
  destruct (C63_docs asc hord rord pks mentions Q_said asc_some q_proper q5 4 q5_mixed) as (m' & E' & _ & _ & K').
  assert (X : (match docs_reachable_by asc q5 3 with Some m => bool_decide (is_Some (m !! 9)) | None => false end) = true) by (vm_compute; reflexivity).
  assert (Y : (match docs_reachable_by asc q5 4 with Some m => bool_decide (is_Some (m !! 9)) | None => true end) = false) by (vm_compute; reflexivity).
  rewrite E in X. rewrite E' in Y. apply bool_decide_eq_true in X. apply bool_decide_eq_false in Y. split; [apply (K 9); [discriminate|exact X]|].
  intros A. apply Y, (K' 9); [discriminate|]. split; [exact q5_doc|exact A].
Qed.
(** Finding: [revokedMembersForDoc] names individuals that have access.  Only the members of the document itself are left out of the list
    of those whose delegation was revoked (group.rs 253-260, js/keyhive.rs 711-730), not those who still come in through a team:
    individual 3 is reported as revoked with the access Edit and as a member with the access Read. *)
Theorem C63_revoked_gone_refuted : ~ (forall h i a c m, mq h -> revoked_members_for_doc asc h i !! a = Some c -> doc_member_capabilities asc h i = Some m -> m !! a = None).
Proof.
  intros H.
  assert (X : (match doc_member_capabilities asc q5 9 with Some m => bool_decide (m !! 3 = None) | None => true end) = false) by (vm_compute; reflexivity).
  assert (Y : revoked_members_for_doc asc q5 9 !! 3 = Some Edit) by (vm_compute; reflexivity).
  destruct (doc_member_capabilities asc q5 9) as [m|] eqn:E; [|discriminate X]. apply bool_decide_eq_false in X. apply X. exact (H q5 9 3 Edit m q5_mixed Y E).
Qed.
(** The same by the specification. *)
Example C63_revoked_case : individual_to q5 3 /\ ~ member_of q5 9 3 /\ exists r, revoking q5 9 r /\ has_op q5 (MR r) /\ d_delegate (r_revoke r) = 3 /\ d_can (r_revoke r) = Edit.
Proof.
  assert (Y : revoked_members_for_doc asc q5 9 !! 3 = Some Edit) by (vm_compute; reflexivity).
  apply (C63_revoked asc hord rord pks mentions Q_said asc_some q_proper q5 9 3 Edit q5_mixed q5_doc) in Y as (A & B & C & _). auto.
Qed.
Print Assumptions C63_revoked_gone_refuted.

(** ** The same operations at a client that only receives them *)
Definition q_events : list (sevent dop) :=
  [EDlg (SDlg 90 7 1 Admin None [] 0 true); EDlg (SDlg 91 9 1 Admin None [] 0 true); EDlg (SDlg 92 9 7 Admin None [] 0 true); EDlg (SDlg 93 1 3 Read (Some 90) [] 0 true);
   EDlg (SDlg 94 1 3 Edit (Some 91) [] 0 true); ERev (SRev 95 1 94 (Some 94) 0 true)].
Definition q_other := foldl (fun h x => (rcv h x).1) (start 3) q_events.
Definition q_receivable (h : client) (o : mop) : bool := qsaidb o && negb (op_subject o =? ks_public (h_keys h)) && bool_decide (ks_indies (h_keys h) !! op_subject o = None).
Lemma q_receivable_ok h o : q_receivable h o = true -> Q_said o /\ op_subject o <> ks_public (h_keys h) /\ ks_indies (h_keys h) !! op_subject o = None.
Proof.
  intros R. apply andb_prop in R as [R C]. apply andb_prop in R as [A B]. split; [apply qsaidb_ok, A|]. split; [|exact (bool_decide_eq_true_1 _ C)].
  intros E. rewrite E, Nat.eqb_refl in B. discriminate.
Qed.
Lemma q_step h x : mq h -> only_stands h x (q_receivable h) = true -> mq (rcv h x).1.
Proof. intros M B. eapply (mx_receive asc hord rord pks mentions Q_said h x); [exact M| |apply surjective_pairing]. intros o Q. apply q_receivable_ok. exact (only_stands_ok _ _ _ o B Q). Qed.
Fixpoint all_stand (h : client) (l : list (sevent dop)) : bool := match l with [] => true | x :: l => only_stands h x (q_receivable h) && all_stand (rcv h x).1 l end.
Lemma q_steps l : forall h, mq h -> all_stand h l = true -> mq (foldl (fun h x => (rcv h x).1) h l).
Proof. induction l as [|x l IH]; intros h M B; [exact M|]. cbn [all_stand] in B. apply andb_prop in B as [B C]. cbn [foldl]. apply IH; [apply q_step; assumption|exact C]. Qed.
Lemma q_other_mixed : mq q_other.
Proof. apply q_steps; [apply mx_start; reflexivity|vm_compute; reflexivity]. Qed.
Lemma q_dlgs : map_to_list (h_dlgs q5) = map_to_list (h_dlgs q_other).
Proof. vm_compute. reflexivity. Qed.
Lemma q_revs : map_to_list (h_revs q5) = [(95, q_gone)] /\ map_to_list (h_revs q_other) = [(95, q_gone)].
Proof. split; vm_compute; reflexivity. Qed.
Lemma q_same o : has_op q5 o <-> has_op q_other o.
Proof.
  destruct o as [d|r]; unfold has_op.
  - rewrite (list_maps _ _ q_dlgs). reflexivity.
  - rewrite (one_entry _ _ _ (proj1 q_revs)), (one_entry _ _ _ (proj2 q_revs)). reflexivity.
Qed.
Lemma q_revoked r : has_op q5 (MR r) -> r = q_gone.
Proof. cbn. rewrite (one_entry _ _ _ (proj1 q_revs)). intros E. apply lookup_singleton_Some in E as [_ <-]. reflexivity. Qed.
Lemma q_other_doc : is_Some (h_docs q_other !! 9).
Proof. apply (bool_decide_unpack _). vm_compute. exact I. Qed.
Example C63_same_people_case m m' : doc_member_capabilities asc q5 9 = Some m -> doc_member_capabilities asc q_other 9 = Some m' -> dom m = dom m'.
Proof.
  apply (C63_same_people asc asc hord hord rord rord pks pks mentions mentions Q_said q5 q_other 9 m m' asc_some asc_some q_proper q5_mixed q_other_mixed q_same); [|exact q5_doc|exact q_other_doc].
  intros j r r' [A _] [B _] _. rewrite (q_revoked r A), (q_revoked r' B). reflexivity.
Qed.
Example C63_same_people_answers : listed (doc_member_capabilities asc q_other 9) = Some [(1, Admin); (3, Read)].
Proof. vm_compute. reflexivity. Qed.
Lemma q_in o : has_op q5 o -> Q_said o.
Proof. exact (SettleProofs.se_in _ _ _ (SettleProofs.mixed_settled asc hord rord pks mentions Q_said asc_some q_proper q5 q5_mixed) o). Qed.
Lemma q_orderable i : orderable (fun o => has_op q5 o /\ op_subject o = i).
Proof.
  exists op_sig. split.
  - intros o p [A _] D. apply q_in in A. unfold Q_said, q_said in A. unfold depends_on in D.
    repeat (apply elem_of_cons in A as [-> |A]; [cbn in D; repeat (apply elem_of_cons in D as [-> |D]; [cbn; lia|]); inversion D|]). inversion A.
  - intros d p r [A _] [B _] E E'. apply q_revoked in B as ->. apply q_in in A. unfold Q_said, q_said in A.
    repeat (apply elem_of_cons in A as [A|A]; [try discriminate A; injection A as ->; cbn in E; try discriminate E; injection E as <-; cbn in E'; try discriminate E'; cbn; lia|]). inversion A.
Qed.
(** Individual 3 was added to the team; the team has access to the document; so the document is reported. *)
Example C63_delegated_case m : docs_reachable_by asc q5 3 = Some m -> is_Some (m !! 9).
Proof.
  refine (C63_delegated asc hord rord pks mentions Q_said asc_some q_proper q5 g_three 9 m q5_mixed _ (q_orderable _) _ _ q5_doc _).
  - vm_compute. reflexivity.
  - intros t r Ht [B _]. apply q_revoked in B as ->. intros E. vm_compute in Ht. repeat (apply elem_of_cons in Ht as [-> |Ht]; [vm_compute in E; discriminate E|]). inversion Ht.
  - right. destruct (C63_docs asc hord rord pks mentions Q_said asc_some q_proper q5 7 q5_mixed) as (m7 & E & _ & _ & K).
    assert (X : (match docs_reachable_by asc q5 7 with Some m => bool_decide (is_Some (m !! 9)) | None => false end) = true) by (vm_compute; reflexivity).
    rewrite E in X. apply bool_decide_eq_true in X. apply (K 9); [discriminate|exact X].
  - discriminate.
Qed.
