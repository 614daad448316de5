(** Calls that fail.  Property C58. *)
From Coq Require Import Arith Lia.
From stdpp Require Import base list gmap relations.
From Verif Require Import ResModel KeysModel TreeModel TreeSpec TreeRun OpsModel CgkaModel.
From Verif Require Import AccessModel GroupModel CgkaSpec GroupSpec GroupPropsProofs GroupExamples PrekeyModel HiveModel HiveSpec SyncModel.
From Verif Require Import DocModel DocSpec DocKeys DocProofs DocEffects DocExamples DocProps FailModel FailSpec FailProofs FailKeys FailExamples.

(** [hive_revoke] is [hive_revoke_member] of the other properties, with what is left behind by an error of the group. *)
Theorem C58_same_call order horder rorder h i target retain content sigs hs :
  (forall h' x, hive_revoke order horder rorder h i target retain content sigs hs = (h', DOk x) <-> hive_revoke_member order horder rorder h i target retain content sigs hs = (h', DOk x)) /\
  (forall e g, revoke_member order e g target retain (me h) content sigs =
     match revoke_so_far order e g target retain (me h) content sigs with (g', rs, ds, GOk _) => GOk (g', rs, ds) | (_, _, _, GErr er) => GErr er end).
Proof.
  split; [|intros e g; apply revoke_eq]. intros h' x. unfold hive_revoke. destruct (hive_revoke_member order horder rorder h i target retain content sigs hs) as [h1 [o|[]]]; try reflexivity.
  split; [|discriminate]. cbv zeta. destruct (h_groups h !! i) as [g|]; [|destruct (h_docs h !! i) as [g|]; [|discriminate]];
  destruct (revoke_so_far _ _ _ _ _ _ _ _) as [[[g1 rs] ds] y]; destruct (revoking_hangs _ _ _ _ _); discriminate.
Qed.
Print Assumptions C58_same_call.

(** ** Membership *)

(** A client whose documents all have keys that are up to date: adding somebody to a group or document with an error
    changes nothing at all. *)
Theorem C58_add order horder rorder pick h i who can content s hs h' e : (forall j, is_Some (h_docs h !! j) -> kept h j) ->
  hive_add_member order horder rorder pick h i who can content s hs = (h', DErr e) -> real e -> h' = h.
Proof. exact (add_fails horder rorder order pick h i who can content s hs h' e). Qed.
Print Assumptions C58_add.
(** Removing somebody else, to whom access was granted once, without keeping those whom they had granted access: an
    error changes nothing at all. *)
Theorem C58_revoke order horder rorder P h i target content sigs hs h' e : some_order order -> well_signed P -> tidy order P h ->
  (forall j, is_Some (h_docs h !! j) -> kept h j) -> target <> me h ->
  (forall g, has_group h i g -> length (default [] (gr_members g !! target)) <= 1) ->
  hive_revoke order horder rorder h i target false content sigs hs = (h', DErr e) -> real e -> h' = h.
Proof. intros O W. exact (hive_revoke_fails horder rorder order O (fun _ _ => 0) P W h i target content sigs hs h' e). Qed.
Print Assumptions C58_revoke.
(** Removing anybody: an error changes no key and no prekey. *)
Theorem C58_revoke_keys order horder rorder P h i target retain content sigs hs h' e : some_order order -> well_signed P -> tidy order P h ->
  (forall j, is_Some (h_docs h !! j) -> kept h j) ->
  hive_revoke order horder rorder h i target retain content sigs hs = (h', DErr e) -> real e -> h_cg h' = h_cg h /\ h_keys h' = h_keys h.
Proof. intros O W. exact (hive_revoke_keys horder rorder order O (fun _ _ => 0) P W h i target retain content sigs hs h' e). Qed.
Print Assumptions C58_revoke_keys.

(** ** Keys *)

(** Updating a key, encrypting, decrypting: an error leaves everything as it was, except for work on the key of the
    document, of which the same operations are known as before.  Decrypting adds none even when it succeeds. *)
Theorem C58_update horder rorder h i sk x rng h' e : hive_update horder rorder h i sk x rng = (h', DErr e) -> same_but_work h h' i.
Proof. exact (hive_update_failed horder rorder h i sk x rng h' e). Qed.
Print Assumptions C58_update.
Theorem C58_encrypt horder rorder h i ref content preds sk x rng h' e :
  hive_encrypt horder rorder h i ref content preds sk x rng = (h', DErr e) -> same_but_work h h' i.
Proof. exact (hive_encrypt_failed horder rorder h i ref content preds sk x rng h' e). Qed.
Print Assumptions C58_encrypt.
Theorem C58_decrypt rorder h i e h' r : hive_decrypt rorder h i e = (h', r) -> same_but_work h h' i.
Proof. exact (hive_decrypt_any rorder h i e h' r). Qed.
Print Assumptions C58_decrypt.

(** ** Received events *)

(** An event that is refused: a delegation, a revocation for a group or document that is known, or a prekey of somebody
    on record changes nothing; an operation of a key changes nothing but, perhaps, work on that key. *)
Theorem C58_received order horder rorder doc_content h x h' e : receive_event order doc_content do_doc do_ok (doc_receive horder rorder) h x = (h', HFail e) ->
  match x with
  | EDlg _ => h' = h
  | ERev r => (forall d, h_dlgs h !! sr_revoke r = Some d -> is_Some (h_env h !! d_subject d)) -> h' = h
  | EKey o => has_record h (ko_issuer o) -> h' = h
  | ECgka o => same_but_work h h' (do_doc o)
  end.
Proof.
  destruct x as [o|o|d|r].
  - exact (receive_prekey_failed order doc_content horder rorder h o h' e).
  - exact (receive_key_failed order doc_content horder rorder h o h' e).
  - exact (receive_dlg_failed order doc_content horder rorder h d h' e).
  - exact (receive_rev_failed order doc_content horder rorder h r h' e).
Qed.
Print Assumptions C58_received.

(** ** Cases *)

(** Client 1 has left the document 9: adding 4 and removing 2 fail, and the client is one to which [C58_add] and
    [C58_revoke] apply. *)
Example C58_example : managed asc hord rord pk QSaid q2 /\ tidy asc QSaid q2 /\ is_Some (h_docs q2 !! 9) /\ (forall j, is_Some (h_docs q2 !! j) -> kept q2 j) /\
  2 <> me q2 /\ (forall g, has_group q2 9 g -> length (default [] (gr_members g !! 2)) <= 1) /\
  hive_add_member asc hord rord pk q2 9 4 Read 0 394 (digests 40) = (q2, DErr (DGroup ENoProof)) /\
  hive_revoke asc hord rord q2 9 2 false 0 [295; 296; 297] (digests 60) = (q2, DErr (DGroup ENoProof)).
Proof.
  split; [exact q2_managed|]. assert (T := qman_tidy _ q2_managed). split; [exact T|]. split; [sets|]. split; [exact q2_kept|].
  assert (M : 2 <> me q2) by (vm_compute; discriminate). split; [exact M|].
  assert (G : forall g, has_group q2 9 g -> length (default [] (gr_members g !! 2)) <= 1).
  { destruct q2_grants as [L N]. intros g [X|X]; [rewrite N in X; discriminate X|]. rewrite X in L. exact L. }
  split; [exact G|].
  assert (R : real (DGroup ENoProof)) by (split; discriminate).
  assert (Q1 := err_pair (addm q2 9 4 Read 0 394 (digests 40)) (DGroup ENoProof) ltac:(vm_compute; reflexivity)).
  assert (Q2 := err_pair (rvk q2 9 2 false 0 [295; 296; 297] (digests 60)) (DGroup ENoProof) ltac:(vm_compute; reflexivity)).
  split.
  - rewrite (C58_add asc hord rord pk _ _ _ _ _ _ _ _ _ q2_kept Q1 R) in Q1. exact Q1.
  - rewrite (C58_revoke asc hord rord QSaid _ _ _ _ _ _ _ _ asc_some q_signed T q2_kept M G Q2 R) in Q2. exact Q2.
Qed.
(** Received by the same client: an operation of the key whose predecessor is not there, a delegation with a wrong
    signature, a revocation of a delegation that is known by somebody who may not, and a prekey of 3 that 4 signed. *)
Notation rcv := (receive_event asc mentions do_doc do_ok (doc_receive hord rord)).
Definition refused (x : client * houtcome) : bool := match x.2 with HFail _ => true | _ => false end.
Lemma refused_pair (x : client * houtcome) : refused x = true -> exists e, x = (x.1, HFail e).
Proof. destruct x as [h []]; cbn; try discriminate. eauto. Qed.
Example C58_received_example : exists e1 e2 e3 e4 h',
  rcv q2 (ECgka (DOp 9 2 true (SignedOp 88 (CUpdate 2 (PathChange 2 1 (SKey (pub 33)) [] []) [98])))) = (h', HFail e1) /\ same_but_work q2 h' 9 /\
  rcv q2 (EDlg (SDlg 300 2 5 Read (Some 92) [] 0 false)) = (q2, HFail e2) /\
  rcv q2 (ERev (SRev 301 4 92 None 0 true)) = (q2, HFail e3) /\
  rcv q2 (EKey (KOp 3 (AddKey 77) 4 (AddKey 77))) = (q2, HFail e4).
Proof.
  destruct (refused_pair (rcv q2 (ECgka (DOp 9 2 true (SignedOp 88 (CUpdate 2 (PathChange 2 1 (SKey (pub 33)) [] []) [98])))))) as (e1 & E1); [vm_compute; reflexivity|].
  destruct (refused_pair (rcv q2 (EDlg (SDlg 300 2 5 Read (Some 92) [] 0 false)))) as (e2 & E2); [vm_compute; reflexivity|].
  destruct (refused_pair (rcv q2 (ERev (SRev 301 4 92 None 0 true)))) as (e3 & E3); [vm_compute; reflexivity|].
  destruct (refused_pair (rcv q2 (EKey (KOp 3 (AddKey 77) 4 (AddKey 77))))) as (e4 & E4); [vm_compute; reflexivity|].
  assert (F1 := C58_received _ _ _ _ _ _ _ _ E1). assert (F2 := C58_received _ _ _ _ _ _ _ _ E2).
  assert (F3 := C58_received _ _ _ _ _ _ _ _ E3). assert (F4 := C58_received _ _ _ _ _ _ _ _ E4). cbn [do_doc] in F1. cbv iota in F2, F3, F4.
  exists e1, e2, e3, e4, (rcv q2 (ECgka (DOp 9 2 true (SignedOp 88 (CUpdate 2 (PathChange 2 1 (SKey (pub 33)) [] []) [98]))))).1.
  split; [exact E1|]. split; [exact F1|]. split; [rewrite F2 in E2; exact E2|]. split; [rewrite F3 in E3; [exact E3|]|rewrite F4 in E4; [exact E4|]].
  - assert (X : bool_decide (is_Some (h_env q2 !! default 0 (d_subject <$> h_dlgs q2 !! 92))) = true) by (vm_compute; reflexivity).
    apply bool_decide_eq_true in X. intros d D. cbn [sr_revoke] in D. rewrite D in X. exact X.
  - right. right. right. sets.
Qed.

(** ** Where it fails *)

(** Leaving while keeping those whom one had granted access.  Client 1 makes document 9 for itself and 2, adds 3, and
    leaves.  First it revokes its own access, then it finds that it has no authority left to grant 3 access again.
    The call fails, and client 1 is out; the key has not been changed.  Asking again succeeds and does nothing, so
    that client 1 keeps its place in the key. *)
Theorem C58_leave_refuted : exists h h' h'' e ops, acting asc hord rord pk mentions h /\
  hive_revoke asc hord rord h 9 (me h) true 0 [95; 96; 97; 98] (digests 30) = (h', DErr e) /\ real e /\
  direct (h_env h) 9 (me h) /\ ~ direct (h_env h') 9 (me h) /\ in_key h' 9 (me h) /\
  hive_revoke asc hord rord h' 9 (me h) true 0 [195; 196; 197; 198] (digests 40) = (h'', DOk ([], [], ops)) /\ in_key h'' 9 (me h).
Proof.
  assert (A : act q3) by (unfold q3, q1; acted). assert (M : me q3 = 1) by (vm_compute; reflexivity).
  assert (Q4 := err_pair q4 (DGroup ENoProof) ltac:(vm_compute; reflexivity)).
  destruct (got_1 q5.2 ([], [])) as (ops & Q5); [vm_compute; reflexivity|]. apply pair_2 in Q5.
  assert (P1 : bool_decide (1 ∈ people q3 9) = true) by (vm_compute; reflexivity). assert (P2 : bool_decide (1 ∉ people q4.1 9) = true) by (vm_compute; reflexivity).
  assert (K1 : keyed q4.1 9 1 = true) by (vm_compute; reflexivity). assert (K2 : keyed q5.1 9 1 = true) by (vm_compute; reflexivity).
  apply bool_decide_eq_true in P1, P2. exists q3, q4.1, q5.1, (DGroup ENoProof), ops. rewrite M. split; [exact A|]. split; [exact Q4|]. split; [split; discriminate|].
  split; [apply people_direct, P1|]. split; [rewrite people_direct; exact P2|]. split; [apply keyed_in, K1|]. split; [exact Q5|]. apply keyed_in, K2.
Qed.
Print Assumptions C58_leave_refuted.
(** Removing somebody who has two grants.  2 and 3: client 1 knows that 2 granted 3 access, and grants 3 more.  It
    removes 3: its own grant is revoked, then there is no authority to revoke the one by 2.  The call fails, one of
    the two grants is gone. *)
Theorem C58_two_grants_refuted : exists h h' e, acting asc hord rord pk mentions h /\
  hive_revoke asc hord rord h 9 3 false 0 [95; 96; 97; 98] (digests 30) = (h', DErr e) /\ real e /\
  grants h 9 3 = [293; 194] /\ grants h' 9 3 = [194] /\ is_Some (h_revs h' !! 95) /\ h_revs h !! 95 = None.
Proof.
  assert (A : act q7) by (unfold q7, q6, q1; acted).
  assert (Q := err_pair q8 (DGroup ENoProof) ltac:(vm_compute; reflexivity)).
  assert (G1 : grants q7 9 3 = [293; 194]) by (vm_compute; reflexivity). assert (G2 : grants q8.1 9 3 = [194]) by (vm_compute; reflexivity).
  assert (R1 : bool_decide (is_Some (h_revs q8.1 !! 95)) = true) by (vm_compute; reflexivity). assert (R2 : h_revs q7 !! 95 = None) by (vm_compute; reflexivity).
  apply bool_decide_eq_true in R1. exists q7, q8.1, (DGroup ENoProof). split; [exact A|]. split; [exact Q|]. split; [split; discriminate|]. auto.
Qed.
Print Assumptions C58_two_grants_refuted.
(** A revocation that is refused, for a group of which only prekeys are known besides the delegation that is to be
    revoked: the prekeys are forgotten. *)
Theorem C58_received_revocation_refuted : exists h h' r e, acting asc hord rord pk mentions h /\
  receive_event asc mentions do_doc do_ok (doc_receive hord rord) h (ERev r) = (h', HFail e) /\ has_record h 7 /\ ~ has_record h' 7.
Proof.
  assert (A : act q9) by (unfold q9; acted).
  destruct (refused_pair q10) as (e & E); [vm_compute; reflexivity|].
  assert (R1 : bool_decide (is_Some (ks_indies (h_keys q9) !! 7)) = true) by (vm_compute; reflexivity). apply bool_decide_eq_true in R1.
  assert (R2 : bool_decide (7 = ks_active (h_keys q10.1)) || bool_decide (is_Some (ks_docs (h_keys q10.1) !! 7)) || bool_decide (is_Some (ks_groups (h_keys q10.1) !! 7)) || bool_decide (is_Some (ks_indies (h_keys q10.1) !! 7)) = false) by (vm_compute; reflexivity).
  apply orb_false_elim in R2 as [R2 R5]. apply orb_false_elim in R2 as [R2 R4]. apply orb_false_elim in R2 as [R2 R3]. apply bool_decide_eq_false in R2, R3, R4, R5.
  exists q9, q10.1, (SRev 95 4 90 None 0 true), e. split; [exact A|]. split; [exact E|]. split; [right; right; right; exact R1|]. intros [X|[X|[X|X]]]; auto.
Qed.
Print Assumptions C58_received_revocation_refuted.
(** A prekey that is refused because somebody else signed it, when nothing is known of its alleged issuer: the issuer is
    on record afterwards, with that very prekey. *)
Theorem C58_received_prekey_refuted : exists h h' o e x, acting asc hord rord pk mentions h /\
  ko_signer o <> ko_issuer o /\ ko_pay o = AddKey 31 /\
  receive_event asc mentions do_doc do_ok (doc_receive hord rord) h (EKey o) = (h', HFail e) /\
  ~ has_record h (ko_issuer o) /\ ks_indies (h_keys h') !! ko_issuer o = Some x /\ 31 ∈ in_prekeys x.
Proof.
  assert (A : act (start 2)) by acted.
  destruct (refused_pair (rcv (start 2) (EKey (KOp 11 (AddKey 31) 4 (AddKey 31))))) as (e & E); [vm_compute; reflexivity|].
  set (h' := (rcv (start 2) (EKey (KOp 11 (AddKey 31) 4 (AddKey 31)))).1) in E.
  assert (R1 : bool_decide (31 ∈ default ∅ (in_prekeys <$> ks_indies (h_keys h') !! 11)) = true) by (vm_compute; reflexivity). apply bool_decide_eq_true in R1.
  destruct (ks_indies (h_keys h') !! 11) as [x|] eqn:X; [|apply not_elem_of_empty in R1; contradiction].
  exists (start 2), h', (KOp 11 (AddKey 31) 4 (AddKey 31)), e, x. split; [exact A|]. split; [discriminate|]. split; [reflexivity|]. split; [exact E|].
  split; [|split; [exact X|exact R1]]. intros [Y|[[y Y]|[[y Y]|[y Y]]]]; vm_compute in Y; discriminate Y.
Qed.
Print Assumptions C58_received_prekey_refuted.
(** Adding to a team that has two documents, where the key of one of them has not arrived: the call fails, and the new
    member is in the team and in the key of the other document. *)
Theorem C58_add_refuted : exists h h' e, acting asc hord rord pk mentions h /\
  hive_add_member asc hord rord pk h 7 2 Read 0 99 (digests 20) = (h', DErr e) /\ real e /\
  ~ direct (h_env h) 7 2 /\ direct (h_env h') 7 2 /\ ~ in_key h 9 2 /\ in_key h' 9 2.
Proof.
  assert (A : act q12) by (unfold q12, q11; acted).
  assert (Q := err_pair q13 (DCgka ENotInitialized) ltac:(vm_compute; reflexivity)).
  assert (P1 : bool_decide (2 ∉ people q12 7) = true) by (vm_compute; reflexivity). assert (P2 : bool_decide (2 ∈ people q13.1 7) = true) by (vm_compute; reflexivity).
  assert (K1 : keyed q12 9 2 = false) by (vm_compute; reflexivity). assert (K2 : keyed q13.1 9 2 = true) by (vm_compute; reflexivity).
  apply bool_decide_eq_true in P1, P2. exists q12, q13.1, (DCgka ENotInitialized). split; [exact A|]. split; [exact Q|]. split; [split; discriminate|].
  split; [rewrite people_direct; exact P1|]. split; [apply people_direct, P2|]. split; [intros X; apply keyed_in in X; rewrite K1 in X; discriminate X|apply keyed_in, K2].
Qed.
Print Assumptions C58_add_refuted.
