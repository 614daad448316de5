(** C65: a client that was stored and brought back answers as before. *)
From Coq Require Import Arith Lia.
From stdpp Require Import base list gmap relations.
From Verif Require Import ResModel KeysModel TreeModel OpsModel CgkaModel.
From Verif Require Import AccessModel GroupModel CgkaSpec GroupSpec PrekeyModel HiveModel HiveSpec SyncModel DocModel DocSpec.
From Verif Require Import ArchiveModel ArchiveSpec ArchiveProofs ArchiveProps TransactModel ArriveModel SettleSpec SettleProps QueryModel RememberModel RestoreProofs.

Section props.
Context (order : gset nat -> list nat) (horder : gset digest -> list digest) (rorder : gset (member_id * nat) -> list (member_id * nat)).
Context (pick : client -> ident -> ident -> share_key) (doc_content : nat -> ident -> bool) (P : mop -> Prop).
Context (O : some_order order) (Pr : proper P).
Notation mixed := (mixed order horder rorder pick doc_content P).

(** Whatever a client did and received: it can be stored and brought back, if everybody it has a delegation to is known to it and
    its operations can be ordered.  What comes back has the same operations, secrets, keys and events waiting, knows the same people,
    and gives the same answers about who has access. *)
Theorem C65_restored h : mixed h -> orderable (has_op h) -> (forall d, has_op h (MD d) -> known_agent h (d_delegate d) = true) ->
  exists a b, into_archive order h = Some a /\ try_from_archive order a = Datatypes.inr b /\ alike h b /\
    (forall s, get_membership_operation b s = get_membership_operation h s) /\ (forall i, known_agent b i = known_agent h i) /\ h_cg b = h_cg h /\ h_pending b = h_pending h /\
    (forall i, reachable_members order b i = reachable_members order h i) /\ (forall i, docs_reachable_by order b i = docs_reachable_by order h i) /\
    (forall i, membered_reachable_by order b i = membered_reachable_by order h i) /\ reachable_docs order b = reachable_docs order h /\
    (forall i j, access_for_doc order b i j = access_for_doc order h i j) /\ (forall i j, best_access_for_doc order b i j = best_access_for_doc order h i j) /\
    (forall i, doc_member_capabilities order b i = doc_member_capabilities order h i).
Proof.
  intros M Q A. destruct (C34_round_trip order h O (mixed_intact order horder rorder pick doc_content P O Pr h M Q A)) as (a & E & B). exists a, (forget h). split; [exact E|]. split; [exact B|].
  split; [unfold alike; rewrite forget_twice; reflexivity|]. split; [reflexivity|]. split; [apply forget_known|]. split; [reflexivity|]. split; [reflexivity|]. split; [apply forget_members|]. split; [apply forget_docs|].
  split; [apply forget_membereds|]. split; [apply forget_docs|]. split; [apply forget_access|]. split; [apply forget_best|apply forget_capabilities].
Qed.
(** Finding: the list of revoked members is always empty after loading (until the next operation of the group arrives): active revocations are not
    stored, and the groups are not rebuilt. *)
Theorem C65_revoked_empty h a b i : mixed h -> orderable (has_op h) -> (forall d, has_op h (MD d) -> known_agent h (d_delegate d) = true) ->
  into_archive order h = Some a -> try_from_archive order a = Datatypes.inr b -> revoked_members_for_doc order b i = ∅.
Proof.
  intros M Q A E B. destruct (C34_round_trip order h O (mixed_intact order horder rorder pick doc_content P O Pr h M Q A)) as (a' & E' & B'). rewrite E in E'. injection E' as <-. rewrite B in B'. injection B' as ->. apply forget_revoked, O.
Qed.
End props.
Print Assumptions C65_restored.
Print Assumptions C65_revoked_empty.
