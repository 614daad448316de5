(** The client of [QueryCases], stored and brought back. *)
From Coq Require Import Arith Lia.
From stdpp Require Import base list gmap relations.
From Verif Require Import ResModel KeysModel TreeModel TreeSpec TreeRun OpsModel CgkaModel.
From Verif Require Import AccessModel GroupModel CgkaSpec GroupSpec GroupTransitive GroupPropsProofs GroupExamples PrekeyModel HiveModel HiveSpec HiveExamples SyncModel.
From Verif Require Import DocModel DocSpec DocExamples ArchiveModel ArchiveSpec TransactModel ArriveModel SettleSpec SettleProps SettleCases QueryModel QueryCases RememberModel RestoreProps.

Lemma q_orderable_all : orderable (has_op q5).
Proof.
  exists op_sig. split.
  - intros o p A D. apply q_in in A. unfold Q_said, q_said in A. unfold depends_on in D.
    repeat (apply elem_of_cons in A as [-> |A]; [cbn in D; repeat (apply elem_of_cons in D as [-> |D]; [cbn; lia|]); inversion D|]). inversion A.
  - intros d p r A B E E'. apply q_revoked in B as ->. apply q_in in A. unfold Q_said, q_said in A.
    repeat (apply elem_of_cons in A as [A|A]; [try discriminate A; injection A as ->; cbn in E; try discriminate E; injection E as <-; cbn in E'; try discriminate E'; cbn; lia|]). inversion A.
Qed.
Lemma q_agents d : has_op q5 (MD d) -> known_agent q5 (d_delegate d) = true.
Proof.
  intros A. apply q_in in A. unfold Q_said, q_said in A. repeat (apply elem_of_cons in A as [A|A]; [try discriminate A; injection A as ->; vm_compute; reflexivity|]). inversion A.
Qed.
Example C65_restored_case : exists a b, into_archive asc q5 = Some a /\ try_from_archive asc a = Datatypes.inr b /\ get_membership_operation b 95 = Some (MR q_gone) /\
  listed (doc_member_capabilities asc b 9) = Some [(1, Admin); (3, Read)] /\ listed (docs_reachable_by asc b 3) = Some [(9, Read)].
Proof.
  destruct (C65_restored asc hord rord pks mentions Q_said asc_some q_proper q5 q5_mixed q_orderable_all q_agents) as (a & b & E & B & _ & G & _ & _ & _ & _ & D & _ & _ & _ & _ & C).
  exists a, b. split; [exact E|]. split; [exact B|]. rewrite G, C, D. split; [|split]; vm_compute; reflexivity.
Qed.
(** Finding: what [revokedMembersForDoc] answers is lost by storing and loading: individual 3 is listed before and not after. *)
Theorem C65_revoked_refuted : ~ (forall h a b i, mixed asc hord rord pks mentions Q_said h -> orderable (has_op h) -> (forall d, has_op h (MD d) -> known_agent h (d_delegate d) = true) ->
  into_archive asc h = Some a -> try_from_archive asc a = Datatypes.inr b -> revoked_members_for_doc asc b i = revoked_members_for_doc asc h i).
Proof.
  intros H. destruct (C65_restored asc hord rord pks mentions Q_said asc_some q_proper q5 q5_mixed q_orderable_all q_agents) as (a & b & E & B & _).
  pose proof (H q5 a b 9 q5_mixed q_orderable_all q_agents E B) as X.
  rewrite (C65_revoked_empty asc hord rord pks mentions Q_said asc_some q_proper q5 a b 9 q5_mixed q_orderable_all q_agents E B) in X.
  assert (Y : revoked_members_for_doc asc q5 9 !! 3 = Some Edit) by (vm_compute; reflexivity). rewrite <- X, lookup_empty in Y. discriminate.
Qed.
Print Assumptions C65_revoked_refuted.
