(** Concrete calls that fail. *)
From Coq Require Import Arith Lia.
From stdpp Require Import base list gmap relations.
From Verif Require Import ResModel KeysModel TreeModel TreeSpec TreeRun OpsModel CgkaModel.
From Verif Require Import AccessModel GroupModel CgkaSpec GroupSpec GroupPropsProofs GroupExamples PrekeyModel HiveModel HiveSpec SyncModel.
From Verif Require Import DocModel DocSpec DocProofs DocEffects DocExamples DocProps FailModel FailSpec FailProofs.

Notation rvk := (hive_revoke asc hord rord).
Definition err {A} (r : dres A) : option derror := match r with DErr e => Some e | DOk _ => None end.
Lemma err_pair {A} (x : client * dres A) e : err x.2 = Some e -> x = (x.1, DErr e).
Proof. destruct x as [a [b|y]]; cbn; [discriminate|intros Q; injection Q as ->; reflexivity]. Qed.

(** Client 1 makes a document for itself and 2, and leaves it. *)
Definition q_one := dl 91 9 1 Admin None.
Definition q_two := dl 92 9 2 Admin None.
Definition q_left := Rev 95 1 q_one (Some q_one) 0.
Definition q_said : list mop := [MD q_one; MD q_two; MR q_left].
Definition QSaid (o : mop) : Prop := o ∈ q_said.
Lemma q_signed : well_signed QSaid.
Proof.
  split.
  - intros a b A B E. unfold QSaid, q_said in A, B. repeat (apply elem_of_cons in A as [->|A]; [repeat (apply elem_of_cons in B as [->|B]; [first [reflexivity|discriminate]|]); inversion B|]). inversion A.
  - intros i a b [A SA] [B SB] E1 E2 E3 E4 E5. unfold QSaid, q_said in A, B.
    repeat (apply elem_of_cons in A as [A|A]; [try discriminate A; injection A as ->; repeat (apply elem_of_cons in B as [B|B]; [try discriminate B; injection B as ->; first [reflexivity|discriminate|cbn in SA, SB; congruence]|]); inversion B|]). inversion A.
Qed.
Notation qman := (managed asc hord rord pk QSaid).
Definition q1 := (gen (start 1) 9 [(1, 91); (2, 92)] 0 40 1 (seq 2 10) 15 (seq 50 10)).1.
Definition q2 := (revm q1 9 1 false 0 [95; 96; 97] (digests 30)).1.
Lemma q1_managed : qman q1.
Proof.
  destruct (got_some (gen (start 1) 9 [(1, 91); (2, 92)] 0 40 1 (seq 2 10) 15 (seq 50 10)).2) as (ops & E); [vm_compute; reflexivity|].
  eapply (mg_doc _ _ _ _ _ (start 1) 9 [(1, 91); (2, 92)] 0 40 1 (seq 2 10) 15 (seq 50 10)).
  - apply mg_start; reflexivity.
  - apply unused_ok. vm_compute. reflexivity.
  - discriminate.
  - sets.
  - sets.
  - intros x Hx. apply elem_of_cons in Hx as [->|Hx]; [left|]. apply elem_of_list_singleton in Hx as ->. right. left.
  - unfold q1. apply pair_2. exact E.
Qed.
Lemma qman_tidy h : qman h -> tidy asc QSaid h.
Proof. intros M. apply (managed_agrees asc asc_some hord rord pk QSaid q_signed h M). Qed.
Lemma q2_managed : qman q2.
Proof.
  destruct (got_1 (revm q1 9 1 false 0 [95; 96; 97] (digests 30)).2 ([q_left], [])) as (ops & E); [vm_compute; reflexivity|].
  eapply (mg_revoke _ _ _ _ _ q1 9 1 false 0 [95; 96; 97] (digests 30) _ [q_left] [] ops).
  - exact q1_managed.
  - apply (only_doc QSaid); [exact q_signed|apply qman_tidy, q1_managed|vm_compute; reflexivity|sets].
  - unfold q2. apply pair_2. exact E.
  - intros r Hr. apply elem_of_list_singleton in Hr as ->. do 2 right. left.
  - intros d Hd. inversion Hd.
  - apply left_ok. sets.
Qed.
Lemma q2_kept j : is_Some (h_docs q2 !! j) -> kept q2 j.
Proof. apply (C46_members asc hord rord pk QSaid q2 asc_some q_signed q2_managed). Qed.
Lemma q2_grants : length (default [] ((default ∅ (gr_members <$> h_docs q2 !! 9)) !! 2)) <= 1 /\ h_groups q2 !! 9 = None.
Proof. split; [apply Nat.leb_le; vm_compute; reflexivity|vm_compute; reflexivity]. Qed.
(** Somebody who makes a document, adds 3 and then leaves, keeping those whom it had granted access. *)
Definition q3 := (addm q1 9 3 Read 0 93 (digests 20)).1.
Definition q4 := rvk q3 9 1 true 0 [95; 96; 97; 98] (digests 30).
Definition q5 := rvk q4.1 9 1 true 0 [195; 196; 197; 198] (digests 40).
(** 2 adds 3 as well; the grant of 2 arrives, then 1 grants 3 more access, then 1 wants to remove 3. *)
Definition q6 := take_all q1 [EDlg (SDlg 194 2 3 Read (Some 92) [] 0 true)].
Definition q7 := (addm q6 9 3 Edit 0 293 (digests 20)).1.
Definition q8 := rvk q7 9 3 false 0 [95; 96; 97; 98] (digests 30).
Definition grants (h : client) (i who : ident) : list sig := map d_sig (default [] ((default ∅ (gr_members <$> h_docs h !! i)) !! who)).
(** Client 2 has a prekey of 7, then a delegation of the group 7, then the prekey again; a stranger revokes. *)
Definition q9 := take_all (start 2) [EKey (sign 7 (AddKey 31)); EDlg (SDlg 90 7 1 Admin None [] 0 true); EKey (sign 7 (AddKey 31))].
Definition q10 := receive_event asc mentions do_doc do_ok (doc_receive hord rord) q9 (ERev (SRev 95 4 90 None 0 true)).
(** Client 1 has a team 7 in document 9, and learns that the team also belongs to document 10, whose key it does not have. *)
Definition q11 := (gen (gg (start 1) 7 [(1, 90)] 0).1 9 [(1, 91); (7, 92)] 0 40 1 (seq 2 10) 15 (seq 50 10)).1.
Definition q12 := take_all q11 [EDlg (SDlg 391 10 7 Admin None [] 0 true)].
Definition q13 := addm q12 7 2 Read 0 99 (digests 20).
