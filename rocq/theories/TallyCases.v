(** Concrete cases of C69, with the client of [QueryCases]. *)
From Coq Require Import Arith Lia.
From stdpp Require Import base list gmap relations.
From Verif Require Import ResModel KeysModel TreeModel TreeSpec TreeRun OpsModel CgkaModel.
From Verif Require Import AccessModel GroupModel CgkaSpec GroupSpec GroupTransitive GroupPropsProofs GroupExamples PrekeyModel HiveModel HiveSpec HiveExamples SyncModel.
From Verif Require Import DocModel DocSpec DocExamples ArchiveModel ArchiveSpec TransactModel ArriveModel SettleSpec SettleProps SettleCases QueryModel QueryCases RememberModel RememberCases RestoreProps RestoreCases.
From Verif Require Import TallyModel TallySpec TallyProofs TallyProps.

(** Seven people, a group, a document, five delegations, one revocation. *)
Definition five (t : tally) : list nat := [ta_people t; ta_groups t; ta_docs t; ta_dlgs t; ta_revs t; ta_expanded t; ta_rotated t].
Example C69_numbers : five (stats q3) = [7; 1; 1; 4; 0; 7; 0] /\ five (stats q5) = [7; 1; 1; 5; 1; 7; 0] /\ ta_key_ops (stats q1) < ta_key_ops (stats q5).
Proof. split; [vm_compute; reflexivity|]. split; [vm_compute; reflexivity|]. apply Nat.ltb_lt. vm_compute. reflexivity. Qed.
Example C69_operations_case : counts 5 (fun d => has_op q5 (MD d)) /\ counts 1 (fun r => has_op q5 (MR r)).
Proof.
  assert (A : ta_dlgs (stats q5) = 5) by (vm_compute; reflexivity). assert (B : ta_revs (stats q5) = 1) by (vm_compute; reflexivity).
  pose proof (C69_operations asc hord rord pks mentions Q_said asc_some q_proper q5 q5_mixed) as X. rewrite A, B in X. exact X.
Qed.
Example C69_grows_case : ta_dlgs (stats q4) <= ta_dlgs (stats q5) /\ ta_revs (stats q4) <= ta_revs (stats q5).
Proof.
  destruct (C69_grows asc hord rord pks mentions Q_said asc_some q_proper q4 q5 q4_mixed q4_later) as (_ & _ & _ & A & B). split; [exact A|exact B].
Qed.
Example C69_loaded_case : exists a b, into_archive asc q5 = Some a /\ try_from_archive asc a = Datatypes.inr b /\ stats b = stats q5.
Proof. exact (C69_loaded asc hord rord pks mentions Q_said asc_some q_proper q5 q5_mixed q_orderable_all q_agents). Qed.
(** Six events wait, of every kind, and three of them are signed by the active agent. *)
Definition q_queue : client := put_pending q5 [e_five; e_gone; EKey (sign 1 (AddKey 9)); EKey (sign 4 (RotateKey 9 8)); ECgka (DOp 9 3 true (SignedOp 80 (CRemove 4 0 [] []))); e_three].
Example C69_waiting_case : map (waiting (stats q_queue)) [KExpanded; KRotated; KKey; KDlg; KRev] = [(1, 1); (1, 0); (1, 0); (2, 1); (1, 1)] /\ waits q_queue KDlg 0 /\ waits_own q_queue KDlg 5 /\ ~ waits_own q_queue KDlg 0.
Proof.
  split; [vm_compute; reflexivity|]. split; [exists e_five; split; [reflexivity|eexists; reflexivity]|].
  split; [exists e_three; split; [reflexivity|]; split; [eexists; reflexivity|]; right; right; left; eexists; split; [reflexivity|vm_compute; reflexivity]|].
  intros (x & E & _ & S). change (Some e_five = Some x) in E. injection E as <-. apply signer_ok in S. vm_compute in S. discriminate.
Qed.
