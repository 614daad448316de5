(** The client of [QueryCases], stored, brought back, and acting. *)
From Coq Require Import Arith Lia.
From stdpp Require Import base list gmap relations.
From Verif Require Import ResModel KeysModel TreeModel TreeSpec TreeRun OpsModel CgkaModel.
From Verif Require Import AccessModel GroupModel CgkaSpec GroupSpec GroupTransitive GroupPropsProofs GroupExamples PrekeyModel HiveModel HiveSpec HiveExamples SyncModel.
From Verif Require Import DocModel DocSpec DocExamples ArchiveModel ArchiveSpec ArchiveProofs TransactModel ArriveModel SettleSpec SettleProps SettleCases QueryModel QueryCases RememberModel RememberSpec RestoreProps RestoreCases ResumeSpec ResumeProps.

Lemma pks_by_keys : picks_by_keys pks.
Proof. intros h h' _. reflexivity. Qed.
(** What is brought back has lost the active revocations, so the two clients are not equal. *)
Definition q_loaded : client := forget q5.
Lemma q_loaded_alike : alike q5 q_loaded.
Proof. unfold alike, q_loaded. rewrite forget_twice. reflexivity. Qed.
Definition active_at (h : client) (i : ident) : nat := match h_docs h !! i with Some g => size (gr_active g) | None => 0 end.
Example q_loaded_differs : active_at q5 9 = 1 /\ active_at q_loaded 9 = 0.
Proof. split; vm_compute; reflexivity. Qed.
(** Adding individual 5 to the document succeeds on the client that was brought back, and makes the same delegation. *)
Definition made_by (r : dres (dlg * list dop)) : option (sig * ident * nat) := match r with DOk (d, ops) => Some (d_sig d, d_delegate d, length ops) | DErr _ => None end.
Example C66_add_case : made_by (addm q_loaded 9 5 Edit 0 98 (digests 45)).2 = Some (98, 5, 1) /\ (addm q5 9 5 Edit 0 98 (digests 45)).2 = (addm q_loaded 9 5 Edit 0 98 (digests 45)).2 /\
  active_at (addm q_loaded 9 5 Edit 0 98 (digests 45)).1 9 = 1.
Proof.
  split; [vm_compute; reflexivity|]. split; [|vm_compute; reflexivity]. pose proof (C66_add_member asc hord rord pks 9 5 Edit 0 98 (digests 45) pks_by_keys q5 q_loaded q_loaded_alike) as X. cbv beta in X.
  change (pks q5) with pk in X. change (pks q_loaded) with pk in X. revert X. generalize (addm q5 9 5 Edit 0 98 (digests 45)) (addm q_loaded 9 5 Edit 0 98 (digests 45)). intros [a r] [b r'] [E _]. exact E.
Qed.
(** The client meets the hypotheses of [C66_goes_on], and goes on: it changes the key of the document. *)
Definition q_changes (h : client) := hive_update hord rord h 9 60 61 (seq 70 10).
Definition succeeded {A} (r : dres A) : bool := match r with DOk _ => true | DErr _ => false end.
Example q_changes_ok : succeeded (q_changes q5).2 = true.
Proof. vm_compute. reflexivity. Qed.
Lemma q_changes_later h : later asc hord rord pks mentions Q_said h (q_changes h).1.
Proof. apply rtc_once. exact (mv_update asc hord rord pks mentions Q_said h 9 60 61 (seq 70 10) _ _ (surjective_pairing (hive_update hord rord h 9 60 61 (seq 70 10)))). Qed.
Example C66_goes_on_case : exists a b b1, into_archive asc q5 = Some a /\ try_from_archive asc a = Datatypes.inr b /\
  later asc hord rord pks mentions Q_said b b1 /\ alike (q_changes q5).1 b1.
Proof.
  destruct (C66_goes_on asc hord rord pks mentions Q_said asc_some q_proper pks_by_keys q5 q5_mixed q_orderable_all q_agents) as (a & b & E & B & F & _).
  destruct (F _ (q_changes_later q5)) as (b1 & L & A). exists a, b, b1. split; [exact E|]. split; [exact B|]. split; [exact L|exact A].
Qed.
