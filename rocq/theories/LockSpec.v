(** When concurrent calls return, and the order of locks that makes them. *)
From Coq Require Import Arith Lia.
From stdpp Require Import base list gmap relations.
From Verif Require Import LockModel.

(** A step of a pool: some task goes on. *)
Definition goes (P Q : pool) : Prop := exists n, fire n P = Some Q.
(** A step, or some task ends early. *)
Definition moves (P Q : pool) : Prop := goes P Q \/ exists n, n < length P /\ Q = cancel n P.
(** Every task has returned. *)
Definition all_returned (P : pool) : Prop := forall t, t ∈ P -> t.2 = [].
(** Some have not, and none can go on. *)
Definition deadlocked (P : pool) : Prop := ~ all_returned P /\ forall n, fire n P = None.
(** A run of a schedule: the tasks that go on, one after the other. *)
Fixpoint follow (ns : list nat) (P : pool) : option pool :=
  match ns with
  | [] => Some P
  | n :: ns => match fire n P with Some Q => follow ns Q | None => None end
  end.

(** Every schedule of the programs [ps] comes to its end with all tasks returned: no state that is met,
    also after some tasks ended early, is a deadlock, and no schedule goes on for ever. *)
Definition always_return (ps : list prog) : Prop :=
  forall P, rtc moves (start_all ps) P ->
    ~ deadlocked P /\
    (forall ns Q, follow ns P = Some Q -> length ns <= sum_list_with (fun t => length t.2) P) /\
    (forall ns Q, follow ns P = Some Q -> exists ms R, follow (ns ++ ms) P = Some R /\ all_returned R).

(** No group or document is behind itself. *)
Definition no_circles (w : world) : Prop := forall a, ~ behind w a a.
(** Only finitely many groups and documents have members. *)
Definition finite_world (w : world) : Prop := exists l : list nat, forall a b, b ∈ w_inside w a -> a ∈ l.
(** The program returns if nothing else runs. *)
Definition returns_alone (p : prog) : Prop := exists ns R, follow ns (start_all [p]) = Some R /\ all_returned R.
(** The calls [cs], each of which returns on its own, can wait for one another for ever. *)
Definition can_deadlock (w : world) (cs : list lcall) : Prop :=
  exists ps ns Q, Forall2 (takes w) cs ps /\ (forall p, p ∈ ps -> returns_alone p) /\ follow ns (start_all ps) = Some Q /\ deadlocked Q.
(** The calls that are covered. *)
Definition orderly (w : world) (c : lcall) : Prop :=
  match c with
  (* a new document: the source of randomness is held while the active agent is wanted *)
  | CNewDoc _ => False
  (* the counts hold the individuals while the groups are wanted *)
  | CStats => False
  (* an addition: no relevant documents are given; the world has the new member inside *)
  | CAddToGroup g who _ docs => docs = [] /\ who ∈ w_inside w g
  (* to a document: and the client is not one of those that are added *)
  | CAddToDoc d who reader docs => docs = [] /\ who ∈ w_inside w d /\ (reader = true -> who <> w_me w /\ ~ behind w who (w_me w))
  (* operations for an individual that turns out to be a group: no revocations are stored for it *)
  | CReceiveDlg _ (InIndies revs) => revs = 0
  | CReceiveRev _ (InIndies revs) => revs = 0
  (* the group of a revocation is known *)
  | CReceiveRev _ Nowhere => False
  | _ => True
  end.
(** The calls that return if nothing else runs. *)
Definition unhindered (w : world) (c : lcall) : Prop :=
  match c with
  (* the document or group itself is not given as a relevant document; the world has the new member inside *)
  | CAddToGroup i who _ docs | CAddToDoc i who _ docs => i ∉ docs /\ who ∈ w_inside w i
  (* the group of a revocation is known *)
  | CReceiveRev _ Nowhere => False
  | _ => True
  end.
