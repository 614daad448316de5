(** What the listener of a client hears.  Property C57. *)
From Coq Require Import Arith Lia.
From stdpp Require Import base list gmap relations.
From Verif Require Import ResModel KeysModel TreeModel TreeSpec TreeRun OpsModel CgkaModel.
From Verif Require Import AccessModel GroupModel CgkaSpec GroupSpec GroupPropsProofs GroupExamples PrekeyModel HiveModel HiveSpec SyncModel ArchiveModel ArchiveSpec.
From Verif Require Import DocModel DocSpec DocExamples TransactModel TransactSpec TransactCommit TransactExamples TransactProps ListenSpec ListenPropsProofs.

(** A client that can be stored and whose keys are sound makes any sequence of calls that succeed: it makes groups
    and documents, adds and removes members, changes keys, encrypts, makes prekeys and takes contact cards.  Then its
    listener was told every delegation, revocation, operation of a key and prekey operation that the client has now
    and did not have before; everything it was told is in the client; and whatever an event refers to was there before
    or was told earlier. *)
Theorem C57_heard order horder rorder pick doc_content h cs h' log : some_order order -> some_order horder -> intact h -> filed_right h -> keys_sound h ->
  (forall c, c ∈ cs -> own_call doc_content c) -> fresh_draws h (concat (map drawn cs)) (concat (map named cs)) -> new_digests h cs ->
  run_calls order horder rorder pick doc_content h cs = Some (h', log) ->
  all_told h h' log /\ all_true h' log /\ told_in_order h log /\ keys_sound h' /\ me h' = me h.
Proof. intros O Oh I F. exact (calls_heard order O horder Oh rorder pick doc_content h cs h' log (stocked_intact h I F)). Qed.
Print Assumptions C57_heard.
(** The keys of every client are sound, whatever it does and receives, and whether calls succeed or not. *)
Theorem C57_keys_sound order horder rorder pick doc_content h : acting order horder rorder pick doc_content h -> keys_sound h.
Proof. exact (acting_sound order horder rorder pick doc_content h). Qed.
Print Assumptions C57_keys_sound.
(** An operation of a key is received, and accepted or not: the client has exactly one operation more if the listener
    was told of it, and is as it was if not. *)
Theorem C57_received_keys order horder rorder pick doc_content h o h' log : keys_sound h ->
  run_call order horder rorder pick doc_content h (TReceive (ECgka o)) = Some (h', log) ->
  forall j q, has_key_op h' j q <-> has_key_op h j q \/ (j = do_doc o /\ q = do_op o /\ ECgka o ∈ log).
Proof.
  intros S E. unfold run_call in E. destruct (receive_event order doc_content do_doc do_ok (doc_receive horder rorder) h (ECgka o)) as [h1 out] eqn:R.
  destruct out; try discriminate; injection E as <- <-; exact (received_key order horder rorder pick doc_content _ _ _ _ S R).
Qed.
Print Assumptions C57_received_keys.
(** A revocation is received: if the client has it then, and did not before, the listener was told. *)
Theorem C57_received_revocation order horder rorder pick doc_content h x h' log : intact h ->
  run_call order horder rorder pick doc_content h (TReceive (ERev x)) = Some (h', log) ->
  forall r, has_op h' (MR r) -> has_op h (MR r) \/ static_of (MR r) ∈ log.
Proof.
  intros I E. unfold run_call in E. destruct (receive_event order doc_content do_doc do_ok (doc_receive horder rorder) h (ERev x)) as [h1 out] eqn:R.
  destruct out; try discriminate; injection E as <- <-; exact (received_rev order horder rorder doc_content _ _ _ _ (in_dlgs _ I) R).
Qed.
Print Assumptions C57_received_revocation.

Definition pair_ok {A B C} (F : A * B -> C) (o : option (A * B)) b : F <$> o = Some b -> exists x y, o = Some (x, y) /\ F (x, y) = b.
Proof. destruct o as [[x y]|]; cbn; [|discriminate]. intros Q. injection Q as <-. eauto. Qed.
Notation calls := (run_calls asc hord rord pk mentions).
Lemma hord_some : some_order hord.
Proof. intros s. reflexivity. Qed.
Lemma m3_sound : keys_sound m3.
Proof. exact (C57_keys_sound asc hord rord pk mentions m3 m3_act). Qed.
(** The hypotheses of [C57_heard] are met: from a client with a group, a document and three people, eight calls. *)
Lemma t_new : new_digests m3 (t_calls ++ t_more).
Proof.
  split; [intros i Hi; apply (bool_decide_unpack _); unfold t_calls, t_more in Hi; cbn in Hi; repeat (apply elem_of_cons in Hi as [-> |Hi]; [vm_compute; exact I|]); inversion Hi|].
  intros j. assert (L : concat (map (digests_of j) (t_calls ++ t_more)) = seq 120 10 ++ seq 130 10 ++ (if 10 =? j then 201 :: seq 202 10 ++ [215] else []) ++ seq 140 10 ++ seq 150 10).
  { unfold t_calls, t_more. cbn [app map concat digests_of]. rewrite ?app_nil_r. reflexivity. }
  rewrite L. split; [destruct (10 =? j); apply (bool_decide_unpack _); vm_compute; exact I|].
  intros x o Hx (c & Ec & Eo) <-. assert (j = 9) as ->.
  { assert (D : map fst (map_to_list (cs_docs (h_cg m3))) = [9]) by (vm_compute; reflexivity). apply elem_of_list_singleton. rewrite <- D. apply elem_of_list_fmap. exists (j, c). split; [reflexivity|apply elem_of_map_to_list, Ec]. }
  assert (K : (fun c => forallb (fun x => negb (contains_op (c_graph c) x)) (seq 120 10 ++ seq 130 10 ++ [] ++ seq 140 10 ++ seq 150 10)) <$> cgka_of m3 9 = Some true) by (vm_compute; reflexivity).
  rewrite Ec in K. cbn [fmap option_fmap option_map] in K. apply (inj Some) in K. rewrite forallb_forall in K. specialize (K (so_hash o)). apply elem_of_list_In in Hx. specialize (K Hx). unfold contains_op in K. rewrite Eo in K. discriminate.
Qed.
Example C57_heard_example : intact m3 /\ filed_right m3 /\ keys_sound m3 /\ (forall c, c ∈ t_calls ++ t_more -> own_call mentions c) /\
  fresh_draws m3 (concat (map drawn (t_calls ++ t_more))) (concat (map named (t_calls ++ t_more))) /\ new_digests m3 (t_calls ++ t_more) /\
  exists h' log, calls m3 (t_calls ++ t_more) = Some (h', log) /\ length log = 20.
Proof.
  destruct C35_commits_example as (I0 & F0 & A & [B _] & _). split; [exact I0|]. split; [exact F0|]. split; [exact m3_sound|]. split; [exact A|]. split; [exact B|]. split; [exact t_new|].
  destruct (pair_ok (fun x => length x.2) (calls m3 (t_calls ++ t_more)) 20) as (h' & log & E & Q); [vm_compute; reflexivity|]. exists h', log. auto.
Qed.
Notation one := (run_call asc hord rord pk mentions).

(** ** What is not heard, or heard although it is not so *)

Definition has_prekeyb (h : client) (i : ident) (o : keyop) : bool := match ks_indies (h_keys h) !! i with Some x => bool_decide (o ∈ in_ops x) | None => false end.
(** A delegation from somebody else that adds a member to a known document: the client has it and a new member, and
    the listener is not told. *)
Theorem C57_received_refuted : exists h h' d, acting asc hord rord pk mentions h /\ run_call asc hord rord pk mentions h (TReceive t_grant) = Some (h', []) /\
  has_op h' (MD d) /\ ~ has_op h (MD d) /\ static_of (MD d) = t_grant /\ direct (h_env h') 9 3 /\ ~ direct (h_env h) 9 3.
Proof.
  destruct (pair_ok (fun x => (length x.2, h_dlgs x.1 !! 93, h_dlgs k2 !! 93, bool_decide (3 ∈ people x.1 9), bool_decide (3 ∈ people k2 9))) (one k2 (TReceive t_grant))
    (0, Some (Dlg 93 1 3 Read (Some (Dlg 91 9 1 Admin None [] 0)) [] 0), None, true, false)) as (h' & log & E & Q); [vm_compute; reflexivity|].
  assert (Q1 := f_equal (fun x => x.1.1.1.1) Q). assert (Q2 := f_equal (fun x => x.1.1.1.2) Q). assert (Q3 := f_equal (fun x => x.1.1.2) Q). assert (Q4 := f_equal (fun x => x.1.2) Q). assert (Q5 := f_equal (fun x => x.2) Q).
  cbv beta in *. cbn [fst snd] in *. clear Q. destruct log; [|discriminate Q1]. apply bool_decide_eq_true in Q4. apply bool_decide_eq_false in Q5.
  exists k2, h', (Dlg 93 1 3 Read (Some (Dlg 91 9 1 Admin None [] 0)) [] 0). rewrite !people_direct. split; [exact k2_act|]. split; [exact E|]. split; [exact Q2|]. split; [intros X; unfold has_op in X; cbn [d_sig] in X; rewrite Q3 in X; discriminate X|]. split; [reflexivity|]. split; [exact Q4|exact Q5].
Qed.
Print Assumptions C57_received_refuted.
(** A prekey operation of somebody else is received as an event: the client has it, and the listener is not told.
    (The same operation in a contact card is told.) *)
Theorem C57_prekey_refuted : exists h h' o, acting asc hord rord pk mentions h /\ run_call asc hord rord pk mentions h (TReceive (EKey o)) = Some (h', []) /\
  has_prekey h' o /\ ~ has_prekey h o /\ exists h'', run_call asc hord rord pk mentions h (TCard o) = Some (h'', [EKey o]).
Proof.
  destruct (pair_ok (fun x => (length x.2, has_prekeyb x.1 11 (sign 11 (AddKey 31)))) (one m3 (TReceive (EKey (sign 11 (AddKey 31))))) (0, true)) as (h' & log & E & Q); [vm_compute; reflexivity|].
  destruct (pair_ok (fun x => x.2) (one m3 (TCard (sign 11 (AddKey 31)))) [EKey (sign 11 (AddKey 31))]) as (h'' & log' & E' & Q'); [vm_compute; reflexivity|].
  injection Q as Q1 Q2. destruct log; [|discriminate Q1]. cbn [snd] in Q'. subst log'. cbn [fst] in Q2.
  exists m3, h', (sign 11 (AddKey 31)). split; [exact m3_act|]. split; [exact E|]. split; [|split; [|exists h''; exact E']].
  - unfold has_prekeyb in Q2. destruct (ks_indies (h_keys h') !! 11) as [x|] eqn:X; [|discriminate Q2]. apply bool_decide_eq_true in Q2. exists 11, x. auto.
  - intros (i & x & X & Hx). assert (N : forallb (fun y => negb (bool_decide (sign 11 (AddKey 31) ∈ in_ops y.2))) (map_to_list (ks_indies (h_keys m3))) = true) by (vm_compute; reflexivity).
    rewrite forallb_forall in N. specialize (N (i, x)). apply elem_of_map_to_list in X. apply elem_of_list_In in X. specialize (N X). cbn [snd] in N. rewrite bool_decide_eq_true_2 in N by exact Hx. discriminate N.
Qed.
Print Assumptions C57_prekey_refuted.
(** A revocation that is refused is told all the same. *)
Theorem C57_rejected_refuted : exists h h', acting asc hord rord pk mentions h /\ run_call asc hord rord pk mentions h (TReceive t_revoke) = Some (h', [t_revoke]) /\ ~ knows h' t_revoke.
Proof.
  destruct (pair_ok (fun x => (x.2, h_revs x.1 !! 95)) (one k2 (TReceive t_revoke)) ([t_revoke], None)) as (h' & log & E & Q); [vm_compute; reflexivity|].
  injection Q as Q1 Q2. cbn [fst snd] in *. subst log. exists k2, h'. split; [exact k2_act|]. split; [exact E|]. intros (o & Ho & Eo). destruct o as [d|r]; [discriminate Eo|].
  assert (r_sig r = 95) by (injection Eo; auto). unfold has_op in Ho. rewrite H in Ho. rewrite Q2 in Ho. discriminate Ho.
Qed.
Print Assumptions C57_rejected_refuted.
(** Client 1 has a team 7 in document 9, and learns that the team also belongs to document 10, whose key it does not
    have yet.  Adding somebody to the team gives them the key of document 9, and then fails at document 10: the key of
    document 9 has changed, and the listener is never told. *)
Definition f_client : client := take_all e0.1 [EDlg (SDlg 391 10 7 Admin None [] 0 true)].
Definition f_add := addm f_client 7 2 Read 0 99 (digests 20).
Lemma f_act : act f_client.
Proof. unfold f_client, e0. acted. Qed.
Definition op_of (h : client) (j : ident) (x : digest) : option signed_op := match cgka_of h j with Some c => g_ops (c_graph c) !! x | None => None end.
Lemma op_of_has h j x o : op_of h j x = Some o -> so_hash o = x -> has_key_op h j o.
Proof. unfold op_of, has_key_op. intros E <-. destruct (cgka_of h j) as [c|]; [eauto|discriminate]. Qed.
Lemma op_of_none h j x o : op_of h j x = None -> so_hash o = x -> ~ has_key_op h j o.
Proof. unfold op_of. intros E <- (c & Ec & X). rewrite Ec in E. congruence. Qed.
Lemma hash_of {A} (f : A -> nat) o x : f <$> o = Some x -> exists a, o = Some a /\ f a = x.
Proof. destruct o as [a|]; [|discriminate]. cbn. intros Q. injection Q as Q. eauto. Qed.
Lemma err_of {A B} (x : A * dres B) e : match x.2 with DErr (DCgka ENotInitialized) => true | _ => false end = true -> e = DCgka ENotInitialized -> x = (x.1, DErr e).
Proof. destruct x as [a [b|[]]]; cbn; try discriminate. destruct e0; try discriminate. intros _ ->. reflexivity. Qed.
Theorem C57_failed_refuted : exists h h' e q, acting asc hord rord pk mentions h /\ hive_add_member asc hord rord pk h 7 2 Read 0 99 (digests 20) = (h', DErr e) /\
  has_key_op h' 9 q /\ ~ has_key_op h 9 q /\ in_key h' 9 2 /\ ~ in_key h 9 2 /\ add_tells (h', DErr e) = [].
Proof.
  destruct (hash_of so_hash (op_of f_add.1 9 20) 20) as (o & G & Go); [vm_compute; reflexivity|].
  assert (Q1 : f_add = (f_add.1, DErr (DCgka ENotInitialized))) by (apply err_of; [vm_compute; reflexivity|reflexivity]).
  assert (Q2 : op_of f_client 9 20 = None) by (vm_compute; reflexivity).
  assert (Q3 : keyed f_add.1 9 2 = true) by (vm_compute; reflexivity). assert (Q4 : keyed f_client 9 2 = false) by (vm_compute; reflexivity).
  exists f_client, f_add.1, (DCgka ENotInitialized), o. split; [exact f_act|]. split; [exact Q1|]. split; [exact (op_of_has _ _ _ _ G Go)|]. split; [exact (op_of_none _ _ _ _ Q2 Go)|].
  split; [apply keyed_in, Q3|]. split; [|reflexivity]. intros X. apply keyed_in in X. rewrite Q4 in X. discriminate X.
Qed.
Print Assumptions C57_failed_refuted.
(** Client 2 receives the operations of the key of document 9 one after the other and hears each; a repeated one
    it does not hear. *)
Definition k2_first : client := take_all (start 2) k_grants.
Lemma k2_first_act : act k2_first.
Proof. unfold k2_first. acted. Qed.
Example C57_received_example : keys_sound k2_first /\ exists h' log, calls k2_first (map TReceive (sent (news (fun x => x) k1.2) ++ sent (news (fun x => x) k1.2))) = Some (h', log) /\ log = sent (news (fun x => x) k1.2) /\ length log = 4 /\
  exists h'' log', one k2_first (TReceive (ERev (SRev 95 1 91 (Some 91) 0 true))) = Some (h'', log') /\ log' = [ERev (SRev 95 1 91 (Some 91) 0 true)] /\ is_Some (h_revs h'' !! 95) /\ h_revs k2_first !! 95 = None.
Proof.
  split; [exact (C57_keys_sound asc hord rord pk mentions _ k2_first_act)|].
  destruct (pair_ok snd (calls k2_first (map TReceive (sent (news (fun x => x) k1.2) ++ sent (news (fun x => x) k1.2)))) (sent (news (fun x => x) k1.2))) as (h' & log & E & Q); [vm_compute; reflexivity|].
  cbn [snd] in Q. exists h', log. split; [exact E|]. split; [exact Q|]. split; [rewrite Q; vm_compute; reflexivity|].
  destruct (pair_ok (fun x => (x.2, bool_decide (is_Some (h_revs x.1 !! 95)), bool_decide (h_revs k2_first !! 95 = None))) (one k2_first (TReceive (ERev (SRev 95 1 91 (Some 91) 0 true)))) ([ERev (SRev 95 1 91 (Some 91) 0 true)], true, true)) as (h'' & log' & E' & Q'); [vm_compute; reflexivity|].
  assert (Q1 := f_equal (fun x => x.1.1) Q'). assert (Q2 := f_equal (fun x => x.1.2) Q'). assert (Q3 := f_equal (fun x => x.2) Q'). cbv beta in *. cbn [fst snd] in *. clear Q'.
  apply bool_decide_eq_true in Q2, Q3. exists h'', log'. split; [exact E'|]. split; [exact Q1|]. split; [exact Q2|exact Q3].
Qed.
