(** Documents: memberships and group keys together.  Properties C36, C37, C46 and C47. *)
From Coq Require Import Arith Lia.
From stdpp Require Import base list gmap relations.
From Verif Require Import ResModel KeysModel TreeModel TreeSpec TreeOps TreeRun SecrecySpec OpsModel CgkaModel.
From Verif Require Import AccessModel GroupModel CgkaSpec GroupSpec GroupPropsProofs GroupExamples PrekeyModel HiveModel HiveSpec SyncModel.
From Verif Require Import DocModel DocSpec DocKeys DocProofs DocEffects DocPropsProofs DocExamples.

(** ** C46: the places in the group key of a document are those of its members *)

(** In a client that manages its groups and documents by itself, the group key of each document has a
    place for the document itself and for exactly the individuals that belong to it. *)
Theorem C46_members order horder rorder pick P h : some_order order -> well_signed P -> managed order horder rorder pick P h ->
  forall j, is_Some (h_docs h !! j) -> kept h j /\ forall m, in_key h j m <-> m = j \/ person_of (h_env h) j m.
Proof. intros O W M. apply (managed_agrees order O horder rorder pick P W h M). Qed.
Print Assumptions C46_members.
(** A new document: whatever groups and documents the client has, the key has a place for the
    document and for exactly those behind the parents. *)
Theorem C46_new_document order horder rorder pick P h i parents content sk h0 hs hu rng h' ops : some_order order -> well_signed P -> tidy order P h ->
  unused h i -> parents <> [] -> NoDup parents.*2 -> (forall x, x ∈ parents -> P (MD (Dlg x.2 i x.1 Admin None [] content))) ->
  hive_generate_doc order horder rorder pick h i parents content sk h0 hs hu rng = (h', DOk ops) ->
  tidy order P h' /\ kept h' i /\ (forall m, in_key h' i m <-> m = i \/ person_of (h_env h') i m) /\ forall j, j <> i -> cgka_of h' j = cgka_of h j.
Proof.
  intros O W T U N ND Pp Q. destruct (generate_doc_effect order O horder rorder pick P W h i parents content sk h0 hs hu rng h' ops T U N ND Pp Q) as (g & h1 & M & C & _ & Oth & (l & pc & _ & Up) & K).
  split; [exact (core_tidy _ _ _ _ C (mk_tidy _ _ _ _ _ _ M))|]. split; [do 3 eexists; exact Up|]. auto.
Qed.
Print Assumptions C46_new_document.
(** Adding a member with read access or more to a document gives a place to exactly the individuals
    behind the new member; with less access nobody gets one.  Adding to a group does the same for
    every document that the group belongs to. *)
Theorem C46_add order horder rorder pick P h i who can content s hs h' d ops : some_order order -> well_signed P -> tidy order P h ->
  hive_add_member order horder rorder pick h i who can content s hs = (h', DOk (d, ops)) -> P (MD d) ->
  tidy order P h' /\
  forall j, is_Some (h_docs h !! j) -> kept h j -> kept h' j /\
    forall m, in_key h' j m <-> in_key h j m \/
      (is_reader can = true /\ (j = i \/ (is_Some (h_groups h !! i) /\ belongs (h_env h') j i)) /\ stands_for (h_env h') who m).
Proof.
  intros O W T Q Pd. destruct (add_effect order O horder rorder pick P W h i who can content s hs h' d ops T Q Pd) as (h1 & g & Ch & C & _ & _ & _ & _ & _ & _ & Mv).
  split; [exact (core_tidy _ _ _ _ C (ch_tidy _ _ _ _ _ _ Ch))|].
  intros j D (key & ops0 & pcs & U). destruct (Mv j D key ops0 pcs U) as (ops' & pcs' & U' & K). split; [do 3 eexists; exact U'|exact K].
Qed.
Print Assumptions C46_add.
(** After an update of the group key everybody with a place can read its new secret. *)
Theorem C46_update_reaches horder rorder h j sk x rng h' op : kept h j -> hive_update horder rorder h j sk x rng = (h', DOk op) ->
  exists c root, cgka_of h' j = Some c /\ forall m p sks, in_key h' j m -> node_key_for_id (c_tree c) m = Ok (SKey (pub p)) ->
    (forall q s, sks !! q = Some s -> pub s = q) -> sks !! pub p = Some p -> exists sks', decrypt_tree_secret (c_tree c) m sks = (sks', Ok root).
Proof. apply updated_readers. Qed.
Print Assumptions C46_update_reaches.

Example C46_example : managed asc hord rord pk Said m4 /\ is_Some (h_docs m4 !! 9) /\
  in_key m4 9 1 /\ in_key m4 9 3 /\ in_key m4 9 4 /\ ~ in_key m4 9 5 /\ person_of (h_env m4) 9 3 /\ ~ person_of (h_env m4) 9 5.
Proof.
  split; [exact m4_managed|]. split; [sets|]. rewrite <- !keyed_in.
  split; [vm_compute; reflexivity|]. split; [vm_compute; reflexivity|]. split; [vm_compute; reflexivity|]. split; [vm_compute; discriminate|].
  split; [apply (person_through m4 9 7 3); vm_compute; reflexivity|]. apply (outb_ok m4 9 5 {[ 1; 3; 4; 7 ]}). vm_compute. reflexivity.
Qed.
Example C46_update_example : kept m6 9 /\ exists h' op, hive_update hord rord m6 9 45 60 (seq 70 10) = (h', DOk op).
Proof.
  split; [apply (C46_members asc hord rord pk Said m6 asc_some said_signed m6_managed); sets|].
  destruct (okb_pair (hive_update hord rord m6 9 45 60 (seq 70 10))) as (op & E); [vm_compute; reflexivity|]. eexists _, op. exact E.
Qed.
(** A team of relays: a new member of the team gets a place although it may not read. *)
Theorem C46_relay_refuted : exists h, acting asc hord rord pk mentions h /\ in_key h 9 3 /\
  forall g caps, h_docs h !! 9 = Some g -> caps_of asc h g = Some caps -> caps !! 3 = Some Relay.
Proof.
  exists b3.1. split; [exact b3_act|]. split; [apply keyed_in; vm_compute; reflexivity|]. intros g caps G E.
  assert (Q : (h_docs b3.1 !! 9) ≫= (fun g => caps_of asc b3.1 g ≫= (fun c => c !! 3)) = Some Relay) by (vm_compute; reflexivity).
  rewrite G in Q. cbn [mbind option_bind] in Q. rewrite E in Q. exact Q.
Qed.
Print Assumptions C46_relay_refuted.
(** Document 9 is a member of document 10: who joins 9 belongs to 10 and gets no place there. *)
Theorem C46_nested_refuted : exists h h' d ops, acting asc hord rord pk mentions h' /\
  hive_add_member asc hord rord pk h 9 4 Read 0 103 (digests 120) = (h', DOk (d, ops)) /\ person_of (h_env h') 10 4 /\ is_Some (h_docs h' !! 10) /\ ~ in_key h' 10 4.
Proof.
  destruct (okb_pair n2) as ([d ops] & E); [vm_compute; reflexivity|]. exists n1.1, n2.1, d, ops. split; [exact n2_act|]. split; [unfold n2 in *; exact E|].
  split; [apply (person_through n2.1 10 9 4); vm_compute; reflexivity|]. split; [sets|]. rewrite <- keyed_in. vm_compute. discriminate.
Qed.
Print Assumptions C46_nested_refuted.

(** ** C37: who is revoked loses the place, unless they still belong *)

(** Revoking a member of a document takes the place from exactly those individuals behind it that do
    not belong to the document any more.  Revoking from a group does the same for every document that
    the group belongs to. *)
Theorem C37_revoke order horder rorder P h i target retain content sigs hs h' rs ds ops : some_order order -> well_signed P -> tidy order P h ->
  hive_revoke_member order horder rorder h i target retain content sigs hs = (h', DOk (rs, ds, ops)) ->
  (forall r, r ∈ rs -> P (MR r)) -> (forall d, d ∈ ds -> P (MD d)) ->
  tidy order P h' /\
  forall j, is_Some (h_docs h !! j) -> kept h j -> kept h' j /\ forall m, in_key h j m ->
    (in_key h' j m <->
     ((j = i \/ (is_Some (h_groups h !! i) /\ belongs (h_env h') j i)) -> direct (h_env h) i target -> stands_for (h_env h) target m -> person_of (h_env h') j m)).
Proof.
  intros O W T Q Pr Pd. destruct (revoke_effect order O horder rorder (fun _ _ => 0) P W h i target retain content sigs hs h' rs ds ops T Q Pr Pd) as (h1 & g & Ch & C & _ & _ & Mv).
  split; [exact (core_tidy _ _ _ _ C (ch_tidy _ _ _ _ _ _ Ch))|].
  intros j D (key & ops0 & pcs & U). destruct (Mv j D key ops0 pcs U) as (ops' & pcs' & U' & K). split; [do 3 eexists; exact U'|].
  intros m Km. rewrite K. unfold concerns. split; [intros [_ X]; exact X|auto].
Qed.
Print Assumptions C37_revoke.
(** Nobody gets a place by a revocation. *)
Theorem C37_revoke_only order horder rorder P h i target retain content sigs hs h' rs ds ops : some_order order -> well_signed P -> tidy order P h ->
  hive_revoke_member order horder rorder h i target retain content sigs hs = (h', DOk (rs, ds, ops)) ->
  (forall r, r ∈ rs -> P (MR r)) -> (forall d, d ∈ ds -> P (MD d)) ->
  forall j m, is_Some (h_docs h !! j) -> kept h j -> in_key h' j m -> in_key h j m.
Proof.
  intros O W T Q Pr Pd j m D (key & ops0 & pcs & U) K'. destruct (revoke_effect order O horder rorder (fun _ _ => 0) P W h i target retain content sigs hs h' rs ds ops T Q Pr Pd) as (h1 & g & _ & _ & _ & _ & Mv).
  destruct (Mv j D key ops0 pcs U) as (ops' & pcs' & _ & K). apply K in K' as [K' _]. exact K'.
Qed.
Print Assumptions C37_revoke_only.
(** In a client that manages its groups and documents by itself: after revoking, everybody has a place
    if and only if they belong. *)
Theorem C37_managed order horder rorder pick P h i target retain content sigs hs h' rs ds ops : some_order order -> well_signed P ->
  managed order horder rorder pick P h -> not_nested h i ->
  hive_revoke_member order horder rorder h i target retain content sigs hs = (h', DOk (rs, ds, ops)) ->
  (forall r, r ∈ rs -> P (MR r)) -> (forall d, d ∈ ds -> P (MD d)) -> only_left (h_env h) (h_env h') i target ->
  forall j, is_Some (h_docs h' !! j) -> forall m, m <> j -> in_key h' j m <-> person_of (h_env h') j m.
Proof.
  intros O W M NN Q Pr Pd J j D m N. assert (M' : managed order horder rorder pick P h') by (eapply mg_revoke; eauto).
  rewrite (proj2 (C46_members _ _ _ _ _ _ O W M' j D)). split; [intros [?|?]; [contradiction|assumption]|auto].
Qed.
Print Assumptions C37_managed.
Example C37_example : managed asc hord rord pk Said m6 /\ in_key m5 9 3 /\ ~ in_key m6 9 3 /\ in_key m6 9 1 /\ ~ person_of (h_env m6) 9 3 /\ person_of (h_env m6) 9 1.
Proof.
  split; [exact m6_managed|]. rewrite <- !keyed_in. split; [vm_compute; reflexivity|]. split; [vm_compute; discriminate|]. split; [vm_compute; reflexivity|].
  split; [apply (outb_ok m6 9 3 {[ 1; 7 ]}); vm_compute; reflexivity|apply person_direct; vm_compute; reflexivity].
Qed.
(** Those who lose access because the grant that theirs rests on was revoked keep their place. *)
Theorem C37_cascade_refuted : exists h h' rs ds ops, acting asc hord rord pk mentions h' /\
  hive_revoke_member asc hord rord h 9 1 false 0 [95; 96; 97] (digests 40) = (h', DOk (rs, ds, ops)) /\
  person_of (h_env h) 9 3 /\ ~ person_of (h_env h') 9 3 /\ in_key h' 9 3.
Proof.
  destruct (okb_pair f4) as ([[rs ds] ops] & E); [vm_compute; reflexivity|]. exists f3.1, f4.1, rs, ds, ops. split; [exact f4_act|]. split; [unfold f4 in *; exact E|].
  split; [apply person_direct; vm_compute; reflexivity|]. split; [apply (outb_ok f4.1 9 3 {[ 1; 7 ]}); vm_compute; reflexivity|apply keyed_in; vm_compute; reflexivity].
Qed.
Print Assumptions C37_cascade_refuted.
(** Document 9 is a member of document 10: who is revoked from 9 keeps the place in 10. *)
Theorem C37_nested_refuted : exists h h' rs ds ops, acting asc hord rord pk mentions h' /\
  hive_revoke_member asc hord rord h 9 3 false 0 [104; 105] (digests 120) = (h', DOk (rs, ds, ops)) /\
  person_of (h_env h) 10 3 /\ ~ person_of (h_env h') 10 3 /\ in_key h' 10 3.
Proof.
  destruct (okb_pair n3) as ([[rs ds] ops] & E); [vm_compute; reflexivity|]. exists n1.1, n3.1, rs, ds, ops. split; [exact n3_act|]. split; [unfold n3 in *; exact E|].
  split; [apply (person_through n1.1 10 9 3); vm_compute; reflexivity|]. split; [apply (outb_ok n3.1 10 3 {[ 1; 9 ]}); vm_compute; reflexivity|apply keyed_in; vm_compute; reflexivity].
Qed.
Print Assumptions C37_nested_refuted.
(** An operation that arrived just before the revocation and is not yet applied brings back who was
    revoked: the next encryption is for them, too. *)
Theorem C37_late_refuted : exists h h' rs ds ops h'' e, acting asc hord rord pk mentions h' /\
  hive_revoke_member asc hord rord h 9 3 false 0 [95; 96; 97] (digests 30) = (h', DOk (rs, ds, ops)) /\ ~ in_key h' 9 3 /\
  hive_encrypt hord rord h' 9 1 [42] [] 45 60 (seq 170 10) = (h'', DOk e) /\ ~ person_of (h_env h'') 9 3 /\ in_key h'' 9 3.
Proof.
  destruct (okb_pair l4) as ([[rs ds] ops] & E); [vm_compute; reflexivity|]. destruct (okb_pair l5) as (e & E5); [vm_compute; reflexivity|].
  exists l3, l4.1, rs, ds, ops, l5.1, e. split; [exact l4_act|]. split; [unfold l4 in *; exact E|]. split; [rewrite <- keyed_in; vm_compute; discriminate|]. split; [fold l5; exact E5|].
  split; [apply (outb_ok l5.1 9 3 {[ 1 ]}); vm_compute; reflexivity|apply keyed_in; vm_compute; reflexivity].
Qed.
Print Assumptions C37_late_refuted.

(** ** C36: who can change the group key of a document *)

(** An operation with a bad signature, or for a document that is not known, changes nothing. *)
Theorem C36_rejected horder rorder h o : do_ok o = false \/ h_docs h !! do_doc o = None ->
  exists e, receive_doc_op horder rorder h o = (h, HFail e).
Proof. unfold receive_doc_op, receive_cgka. intros [E|E]; rewrite E; cbn; [eauto|]. destruct (do_ok o); cbn; eauto. Qed.
Print Assumptions C36_rejected.
(** Whatever the operation, memberships and prekeys stay as they are, and so do the group keys of all
    other documents. *)
Theorem C36_other_documents horder rorder h o h' r : receive_doc_op horder rorder h o = (h', r) ->
  h_groups h' = h_groups h /\ h_docs h' = h_docs h /\ h_keys h' = h_keys h /\ forall j, j <> do_doc o -> cgka_of h' j = cgka_of h j.
Proof. intros Q. destruct (receive_other horder rorder h o h' r Q) as [(E1 & E2 & E3) K]. auto. Qed.
Print Assumptions C36_other_documents.
(** A stranger who has seen the operations of the group key adds themselves; the member takes the
    operation, and what the member encrypts then the stranger can read. *)
Theorem C36_stranger_refuted : exists h o h' h'' e op hs hs', acting asc hord rord pk mentions h /\ acting asc hord rord pk mentions hs /\ me hs = 5 /\
  do_issuer o = 5 /\ do_ok o = true /\ ~ person_of (h_env h) (do_doc o) 5 /\ receive_doc_op hord rord h o = (h', HDone) /\ h_env h' = h_env h /\
  in_key h' 9 5 /\ hive_encrypt hord rord h' 9 1 [42] [] 45 60 (seq 70 10) = (h'', DOk (e, op)) /\
  hive_decrypt rord hs 9 e = (hs', Some [42]).
Proof.
  assert (Q : exists x, k_in = [x]). { assert (X : length k_in = 1) by (vm_compute; reflexivity). destruct k_in as [|x [|y l]]; try discriminate. eauto. }
  destruct Q as (x & Ex). set (o := DOp 9 5 true x). assert (E2 : k2_in = (receive_doc_op hord rord k2 o).1). { unfold k2_in. rewrite Ex. reflexivity. }
  destruct (okb_pair k2_enc) as ([e op] & Ee); [vm_compute; reflexivity|].
  exists k2, o, k2_in, k2_enc.1, e, op, k5_after, (hive_decrypt rord k5_after 9 e).1.
  split; [exact k2_act|]. split; [exact k5_after_act|]. split; [vm_compute; reflexivity|]. split; [reflexivity|]. split; [reflexivity|].
  split; [apply (outb_ok k2 9 5 {[ 1; 2 ]}); vm_compute; reflexivity|].
  assert (R : receive_doc_op hord rord k2 o = (k2_in, HDone)).
  { rewrite E2. apply pair_2. assert (Y : match k_in with x :: _ => (receive_doc_op hord rord k2 (DOp 9 5 true x)).2 | [] => HHang end = HDone) by (vm_compute; reflexivity). rewrite Ex in Y. exact Y. }
  split; [exact R|]. split. { destruct (C36_other_documents hord rord k2 o k2_in HDone R) as (A & B & _). unfold h_env. rewrite A, B. reflexivity. }
  split; [apply keyed_in; vm_compute; reflexivity|]. split; [unfold k2_enc in *; exact Ee|]. apply pair_2.
  assert (Y : reads k5_after k2_enc.2 = Some [42]) by (vm_compute; reflexivity). rewrite Ee in Y. exact Y.
Qed.
Print Assumptions C36_stranger_refuted.

(** ** C47: who does not belong to a document cannot read what is encrypted for it *)

(** In a client that manages its groups and documents by itself, let [ops] be the history of the group
    key of a document.  Any set of others that do not belong, who pool all secrets they contributed
    and see everything that was published, cannot derive the current secret, provided that secrets
    were chosen freshly and none of theirs is the key of a place. *)
Theorem C47_outsiders order horder rorder pick P h j c key ops pcs (C : ident -> Prop) (K : secret_key -> Prop) : some_order order -> well_signed P ->
  managed order horder rorder pick P h -> is_Some (h_docs h !! j) -> up_to_date h j key ops pcs -> cgka_of h j = Some c -> fresh_history (OAdd j key :: ops) ->
  (forall i, C i -> i <> j /\ ~ person_of (h_env h) j i) ->
  (forall s, K s <-> exists op, op ∈ OAdd j key :: ops /\ C (op_member op) /\ op_secret op s) ->
  (forall m p, node_key_for_id (c_tree c) m = Ok (SKey (pub p)) -> ~ K p) ->
  forall m p sks sks' root, node_key_for_id (c_tree c) m = Ok (SKey (pub p)) ->
    (forall q s, sks !! q = Some s -> pub s = q) -> sks !! pub p = Some p ->
    decrypt_tree_secret (c_tree c) m sks = (sks', Ok root) -> ~ derivable K (published pcs) root.
Proof. intros O W. apply (locked_out order O horder rorder pick P W). Qed.
Print Assumptions C47_outsiders.
(** The document itself has a place for ever, and its creator has the secret of it: a creator who
    was removed still reads what is encrypted later. *)
Theorem C47_creator_refuted : exists h e op h' h1 h1', acting asc hord rord pk mentions h /\ acting asc hord rord pk mentions h1 /\ me h1 = 1 /\
  ~ person_of (h_env h) 9 1 /\ ~ in_key h 9 1 /\ ~ person_of (h_env h1) 9 1 /\ ~ in_key h1 9 1 /\
  hive_encrypt hord rord h 9 1 [42] [] 45 60 (seq 70 10) = (h', DOk (e, op)) /\ hive_decrypt rord h1 9 e = (h1', Some [42]).
Proof.
  destruct (okb_pair q2_enc) as ([e op] & Ee); [vm_compute; reflexivity|].
  exists q2, e, op, q2_enc.1, q1_after, (hive_decrypt rord q1_after 9 e).1. split; [exact q2_act|]. split; [exact q1_after_act|]. split; [vm_compute; reflexivity|].
  split; [apply (outb_ok q2 9 1 {[ 2 ]}); vm_compute; reflexivity|]. split; [rewrite <- keyed_in; vm_compute; discriminate|].
  split; [apply (outb_ok q1_after 9 1 {[ 2 ]}); vm_compute; reflexivity|]. split; [rewrite <- keyed_in; vm_compute; discriminate|].
  split; [unfold q2_enc in *; exact Ee|]. apply pair_2. assert (Y : reads q1_after q2_enc.2 = Some [42]) by (vm_compute; reflexivity). rewrite Ee in Y. exact Y.
Qed.
Print Assumptions C47_creator_refuted.

(** Members 3 and 4 were removed and the group key was updated since: they cannot derive its secret,
    and 1 reads it. *)
Definition m7_ops : list tree_op := [OAdd 1 21; OUpdate 9 40 (seq 50 10); OAdd 3 23; OAdd 4 24; ORemove 4; ORemove 3; OUpdate 9 45 (seq 70 10)].
Global Instance store_eq_dec : EqDecision store.
Proof. unfold store. solve_decision. Defined.
Global Instance leaf_eq_dec : EqDecision leaf_node.
Proof. solve_decision. Defined.
Global Instance tree_eq_dec : EqDecision tree.
Proof. solve_decision. Defined.
Definition check_up (h : client) (j : ident) (key : share_key) (ops : list tree_op) : bool :=
  match cgka_of h j, (let! t0 := tree_new j key in TreeOps.run t0 ops) with
  | Some c, Ok (t, _) => bool_decide (c_tree c = t) && (c_owner c =? j) && negb (c_pending c) && has_single_head (c_graph c) && contains_id (c_tree c) j
  | _, _ => false
  end.
Lemma check_up_ok h j key ops : check_up h j key ops = true -> exists c pcs, cgka_of h j = Some c /\ up_to_date h j key ops pcs.
Proof.
  unfold check_up, up_to_date. destruct (cgka_of h j) as [c|]; [|discriminate]. destruct (tree_new j key) as [t0| | |] eqn:T; try discriminate. cbn [rbind].
  destruct (TreeOps.run t0 ops) as [[t pcs]| | |] eqn:R; try discriminate. rewrite !andb_true_iff, bool_decide_eq_true, Nat.eqb_eq, negb_true_iff. intros [[[[E O] Pe] S] Co].
  exists c, pcs. split; [reflexivity|]. exists c. repeat split; auto. exists t0. rewrite E. auto.
Qed.
Example C47_example : exists c pcs root sks, cgka_of m7 9 = Some c /\ up_to_date m7 9 40 m7_ops pcs /\
  decrypt_tree_secret (c_tree c) 1 {[ 21 := 21 ]} = (sks, Ok root) /\ ~ derivable (fun s => s = 23 \/ s = 24) (published pcs) root.
Proof.
  destruct (check_up_ok m7 9 40 m7_ops) as (c & pcs & E & U); [vm_compute; reflexivity|].
  assert (R : (decrypt_tree_secret (c_tree c) 1 {[ 21 := 21 ]}).2 = Ok 71 /\ node_key_for_id (c_tree c) 1 = Ok (SKey 21) /\ node_key_for_id (c_tree c) 9 = Ok (SKey 45) /\ dom (t_ids (c_tree c)) = {[ 1; 9 ]}).
  { assert (Q : (fun c => ((decrypt_tree_secret (c_tree c) 1 {[ 21 := 21 ]}).2, node_key_for_id (c_tree c) 1, node_key_for_id (c_tree c) 9, bool_decide (dom (t_ids (c_tree c)) = {[ 1; 9 ]}))) <$> cgka_of m7 9 = Some (Ok 71, Ok (SKey 21), Ok (SKey 45), true)) by (vm_compute; reflexivity).
    rewrite E in Q. injection Q as Q1 Q2 Q3 Q4. apply bool_decide_eq_true in Q4. auto. }
  destruct R as (R & K1 & K9 & Dm). exists c, pcs, 71, (decrypt_tree_secret (c_tree c) 1 {[ 21 := 21 ]}).1. split; [exact E|]. split; [exact U|]. split; [apply pair_2, R|].
  apply (C47_outsiders asc hord rord pk Said m7 9 c 40 m7_ops pcs (fun i => i = 3 \/ i = 4) _ asc_some said_signed m7_managed) with (m := 1) (p := 21) (sks := {[ 21 := 21 ]}) (sks' := (decrypt_tree_secret (c_tree c) 1 {[ 21 := 21 ]}).1).
  - sets.
  - exact U.
  - exact E.
  - split; [sets|]. intros op s H. unfold m7_ops in H. repeat (apply elem_of_cons in H as [->|H]; [intros X; cbn in X; unfold pub in X; subst; try contradiction; sets|]). inversion H.
  - intros i [->| ->]; (split; [discriminate|]).
    + apply (outb_ok m7 9 3 {[ 1; 7 ]}). vm_compute. reflexivity.
    + apply (outb_ok m7 9 4 {[ 1; 7 ]}). vm_compute. reflexivity.
  - intros s. split.
    + intros [->| ->]; [exists (OAdd 3 23)|exists (OAdd 4 24)]; (split; [unfold m7_ops; rewrite !elem_of_cons; auto 10|]); (split; [cbn; auto|]); left; reflexivity.
    + intros (op & H & Cm & S). unfold m7_ops in H. unfold op_secret in S.
      do 3 (apply elem_of_cons in H as [->|H]; [cbn in Cm; destruct Cm; discriminate|]).
      apply elem_of_cons in H as [->|H]; [destruct S as [S|S]; [left; exact S|inversion S]|].
      apply elem_of_cons in H as [->|H]; [destruct S as [S|S]; [right; exact S|inversion S]|].
      do 2 (apply elem_of_cons in H as [->|H]; [destruct S as [S|S]; [destruct S|inversion S]|]).
      apply elem_of_list_singleton in H as ->. cbn in Cm. destruct Cm; discriminate.
  - intros m p Km Kp. assert (Hm : m ∈ dom (t_ids (c_tree c))). { unfold node_key_for_id, leaf_index_for_id in Km. apply elem_of_dom. destruct (t_ids (c_tree c) !! m); [eauto|discriminate]. }
    rewrite Dm in Hm. apply elem_of_union in Hm as [Hm|Hm]; apply elem_of_singleton in Hm as ->; [rewrite K1 in Km|rewrite K9 in Km]; injection Km as Km; unfold pub in Km; subst p; destruct Kp; discriminate.
  - exact K1.
  - intros q s H. apply lookup_singleton_Some in H as [<- <-]. reflexivity.
  - apply lookup_singleton.
  - apply pair_2, R.
Qed.
