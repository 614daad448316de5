(** The client of [QueryCases] names only agents that it knows; a client that does not cannot be brought back. *)
From Coq Require Import Arith Lia.
From stdpp Require Import base list gmap relations.
From Verif Require Import ResModel KeysModel TreeModel TreeSpec TreeRun OpsModel CgkaModel.
From Verif Require Import AccessModel GroupModel CgkaSpec GroupSpec GroupTransitive GroupPropsProofs GroupExamples PrekeyModel HiveModel HiveSpec HiveExamples SyncModel.
From Verif Require Import DocModel DocSpec DocExamples ArchiveModel ArchiveSpec TransactModel ArriveModel SettleSpec SettleProps SettleCases QueryModel QueryCases RememberModel RestoreCases SourceSpec SourceProps.

Notation aq := (acquainted asc hord rord pks mentions Q_said).
Lemma q1_acquainted : aq q1.
Proof.
  eapply (aq_group asc hord rord pks mentions Q_said (start 1) 7 [(1, 90)] 0); [apply aq_start; reflexivity|apply (bool_decide_unpack _); vm_compute; exact I|vm_compute; discriminate|discriminate|sets| |apply surjective_pairing].
  intros x Hx. apply elem_of_list_singleton in Hx as ->. split; [left|vm_compute; reflexivity].
Qed.
Lemma q2_acquainted : aq q2.
Proof.
  eapply (aq_doc asc hord rord pks mentions Q_said q1 9 [(1, 91); (7, 92)] 0 40 1 (seq 2 10) 15 (seq 50 10)); [exact q1_acquainted|apply (bool_decide_unpack _); vm_compute; exact I|vm_compute; discriminate|discriminate|sets| |apply surjective_pairing].
  intros x Hx. apply elem_of_cons in Hx as [-> |Hx]; [split; [apply qsaidb_ok|]; vm_compute; reflexivity|]. apply elem_of_list_singleton in Hx as ->. split; [apply qsaidb_ok|]; vm_compute; reflexivity.
Qed.
Lemma q3_acquainted : aq q3.
Proof.
  eapply (aq_add asc hord rord pks mentions Q_said q2 7 3 Read 0 93 (digests 20)); [exact q2_acquainted|vm_compute; reflexivity| |apply surjective_pairing]. intros o Q. apply qsaidb_ok.
  refine (only_adds_ok q2 7 3 Read 0 93 _ o _ Q). vm_compute. reflexivity.
Qed.
Lemma q4_acquainted : aq q4.
Proof.
  eapply (aq_add asc hord rord pks mentions Q_said q3 9 3 Edit 0 94 (digests 30)); [exact q3_acquainted|vm_compute; reflexivity| |apply surjective_pairing]. intros o Q. apply qsaidb_ok.
  refine (only_adds_ok q3 9 3 Edit 0 94 _ o _ Q). vm_compute. reflexivity.
Qed.
Example q5_acquainted : aq q5.
Proof.
  eapply (aq_revoke asc hord rord pks mentions Q_said q4 9 3 false 0 [95; 96; 97] (digests 35)); [exact q4_acquainted| |apply surjective_pairing]. intros o Q. apply qsaidb_ok.
  refine (only_revokes_ok q4 9 3 false 0 [95; 96; 97] _ o _ Q). vm_compute. reflexivity.
Qed.
Example C67_restored_case : exists a b, into_archive asc q5 = Some a /\ try_from_archive asc a = Datatypes.inr b /\ alike q5 b.
Proof. exact (C67_restored asc hord rord pks mentions Q_said asc_some q_proper q5 q5_acquainted q_orderable_all). Qed.
(** The delegation that adds individual 3 to the document is new, and as asked. *)
Example C67_add_case : ~ has_op q3 (MD q_three) /\ has_op q4 (MD q_three) /\ asked_adding q3 3 Edit 94 (MD q_three).
Proof.
  assert (A : ~ has_op q3 (MD q_three)) by (unfold has_op; vm_compute; discriminate). assert (B : has_op q4 (MD q_three)) by (unfold has_op; vm_compute; reflexivity).
  split; [exact A|]. split; [exact B|]. destruct (C67_add asc hord rord pk q3 9 3 Edit 0 94 (digests 30) q4 _ (MD q_three) (surjective_pairing _) B) as [X|X]; [contradiction|exact X].
Qed.
(** The hypothesis is needed: adding somebody that the client does not know succeeds, and what is stored cannot be brought back. *)
Definition q_stranger := (addm q2 7 42 Read 0 93 (digests 20)).1.
Definition loads (h : client) : option bool := match into_archive asc h with Some a => Some (match try_from_archive asc a with Datatypes.inr _ => true | Datatypes.inl _ => false end) | None => None end.
Example q_stranger_lost : known_agent q2 42 = false /\ loads q2 = Some true /\ loads q_stranger = Some false.
Proof. split; [|split]; vm_compute; reflexivity. Qed.
