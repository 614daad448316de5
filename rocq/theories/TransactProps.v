(** Transactions on a client.  Property C35. *)
From Coq Require Import Arith Lia.
From stdpp Require Import base list gmap relations.
From Verif Require Import ResModel KeysModel TreeModel TreeSpec TreeRun OpsModel CgkaModel.
From Verif Require Import AccessModel GroupModel CgkaSpec GroupSpec GroupPropsProofs GroupExamples PrekeyModel HiveModel HiveSpec SyncModel ArchiveModel ArchiveSpec.
From Verif Require Import DocModel DocSpec DocExamples TransactModel TransactSpec TransactCommit TransactExamples.

Lemma m3_act : act m3.
Proof. unfold m3, m2, m1, m0. acted. Qed.

(** A transaction that ends well, with nothing going on in the meantime and a body that receives nothing:
    the client has the groups, documents, members, delegations and revocations of the fork, every
    individual and prekey operation of it, and every secret.  What is drawn in the body has to be new.
    If everybody who was given access is known, the client can again be stored, loaded and forked. *)
Theorem C35_commits order horder rorder pick doc_content h cs h' : some_order order -> intact h -> filed_right h ->
  (forall c, c ∈ cs -> own_call doc_content c) -> fresh_body h cs ->
  transact order horder rorder pick doc_content h id cs = ADone h' ->
  exists f log, forked order horder rorder pick doc_content h cs f log /\ same_groups h' f /\ keeps_keys h' f /\ me h' = me h /\
    filed_right h' /\ (registered (fun i => known_agent h i = true) cs -> orderable (has_op h') \/ revoked_from_above (has_op h') -> intact h').
Proof. intros O. exact (transact_commits order O horder rorder pick doc_content h cs h'). Qed.
Print Assumptions C35_commits.
(** Whatever the body does and whatever happens meanwhile: a transaction ends well only if every call
    of the body did, and the client then holds the secrets of both. *)
Theorem C35_ends_well order horder rorder pick doc_content h later cs h' : transact order horder rorder pick doc_content h later cs = ADone h' ->
  exists f log, forked order horder rorder pick doc_content h cs f log /\ cs_pairs (h_cg h') = cs_pairs (h_cg f) ∪ cs_pairs (h_cg (later h)).
Proof. exact (transact_ran order horder rorder pick doc_content h later cs h'). Qed.
Print Assumptions C35_ends_well.
(** Property C34 again: a client that can be stored and loaded stays so when it makes a group or document, adds
    or removes members, changes keys, encrypts, makes prekeys or takes a contact card. *)
Theorem C34_calls_kept order horder rorder pick doc_content h c h' log : some_order order -> intact h -> filed_right h ->
  own_call doc_content c -> fresh_draws h (drawn c) (named c) -> (forall i, i ∈ invited c -> known_agent h i = true) ->
  run_call order horder rorder pick doc_content h c = Some (h', log) ->
  filed_right h' /\ (orderable (has_op h') -> intact h') /\ (revoked_from_above (has_op h') -> intact h').
Proof. intros O. exact (call_intact order O horder rorder pick doc_content h c h' log). Qed.
Print Assumptions C34_calls_kept.

(** The client [m3] of the examples made a group, a document, and added a member. *)
Lemma blank_ok : intact m0 /\ filed_right m0.
Proof.
  assert (N : forall o, has_op m0 o -> False) by (intros [d|r] H; unfold has_op, m0, start in H; cbn in H; rewrite lookup_empty in H; discriminate).
  assert (G : forall i g, has_group m0 i g -> False) by (intros i g [H|H]; unfold m0, start in H; cbn in H; rewrite lookup_empty in H; discriminate).
  split; [|intros i g H; destruct (G i g H)]. constructor.
  - intros s d H. unfold m0, start in H. cbn in H. rewrite lookup_empty in H. discriminate.
  - intros s d H. unfold m0, start in H. cbn in H. rewrite lookup_empty in H. discriminate.
  - intros a b H. destruct (N a H).
  - intros o p H. destruct (N o H).
  - intros d H. destruct (N _ H).
  - exists (fun _ => 0). split; [intros o p H; destruct (N o H)|intros d p r H; destruct (N _ H)].
  - intros i g o H. destruct (G i g H).
  - intros i g H. destruct (G i g H).
  - intros i g d H. destruct (G i g H).
  - intros i g j l H. destruct (G i g H).
Qed.
Lemma unrevoked h : map_to_list (h_revs h) = [] -> revoked_from_above (has_op (h : client)).
Proof. intros E r p H. cbn in H. apply map_to_list_empty_iff in E. rewrite E, lookup_empty in H. discriminate. Qed.
Ltac draws := constructor; [apply (bool_decide_unpack _); vm_compute; exact I|apply (bool_decide_unpack _); vm_compute; exact I|
  intros s Hs; cbn in Hs; repeat (apply elem_of_cons in Hs as [-> |Hs]; [vm_compute; auto|]); inversion Hs|
  intros s Hs; cbn in Hs; repeat (apply elem_of_cons in Hs as [-> |Hs]; [vm_compute; auto|]); inversion Hs].
Ltac each := intros s Hs; cbn in Hs; repeat (apply elem_of_cons in Hs as [-> |Hs]; [vm_compute; reflexivity|]); inversion Hs.
Lemma m3_ok : intact m3 /\ filed_right m3.
Proof.
  assert (M1 : intact m1 /\ filed_right m1).
  { destruct blank_ok as [I0 F0]. destruct (okb_pair (gg m0 7 [(1, 90)] 0)) as (x & E); [vm_compute; reflexivity|].
    edestruct (C34_calls_kept asc hord rord pk mentions m0 (TGroup 7 [(1, 90)] 0) m1) as (A & _ & B); [exact asc_some|exact I0|exact F0|split; [discriminate|reflexivity]|draws|each| |].
    { unfold run_call. rewrite E. reflexivity. }
    split; [apply B, unrevoked; vm_compute; reflexivity|exact A]. }
  assert (M2 : intact m2 /\ filed_right m2).
  { destruct M1 as [I0 F0]. destruct (okb_pair (gen m1 9 [(1, 91); (7, 92)] 0 40 1 (seq 2 10) 15 (seq 50 10))) as (x & E); [vm_compute; reflexivity|].
    edestruct (C34_calls_kept asc hord rord pk mentions m1 (TDoc 9 [(1, 91); (7, 92)] 0 40 1 (seq 2 10) 15 (seq 50 10)) m2) as (A & _ & B); [exact asc_some|exact I0|exact F0|split; [discriminate|reflexivity]|draws|each| |].
    { unfold run_call. rewrite E. reflexivity. }
    split; [apply B, unrevoked; vm_compute; reflexivity|exact A]. }
  destruct M2 as [I0 F0]. destruct (okb_pair (addm m2 7 3 Read 0 93 (digests 20))) as ([d ops] & E); [vm_compute; reflexivity|].
  edestruct (C34_calls_kept asc hord rord pk mentions m2 (TAdd 7 3 Read 0 93 (digests 20)) m3) as (A & _ & B); [exact asc_some|exact I0|exact F0|exact I|draws|each| |].
  { unfold run_call. rewrite E. reflexivity. }
  split; [apply B, unrevoked; vm_compute; reflexivity|exact A].
Qed.
(** The hypotheses of [C35_commits] are met by [m3] and the body below, and the transaction ends well; afterwards
    the client is fit for another one. *)
Definition t_more : list call := [TExpand 400; TRotate (pub 21) 401; TCard (sign 11 (AddKey 31)); TAdd 10 11 Read 0 198 (digests 150)].
Example C35_commits_example : intact m3 /\ filed_right m3 /\ (forall c, c ∈ t_calls ++ t_more -> own_call mentions c) /\ fresh_body m3 (t_calls ++ t_more) /\
  registered (fun i => known_agent m3 i = true) (t_calls ++ t_more) /\
  exists h, transact asc hord rord pk mentions m3 id (t_calls ++ t_more) = ADone h /\ revoked_from_above (has_op h) /\ intact h.
Proof.
  destruct m3_ok as [I0 F0]. split; [exact I0|]. split; [exact F0|].
  assert (A : forall c, c ∈ t_calls ++ t_more -> own_call mentions c).
  { intros c Hc. unfold t_calls, t_more in Hc. cbn [app] in Hc. repeat (apply elem_of_cons in Hc as [-> |Hc]; [first [exact I|split; [discriminate|reflexivity]]|]). inversion Hc. }
  assert (B : fresh_body m3 (t_calls ++ t_more)).
  { split; [draws|]. intros s Hs. apply (bool_decide_unpack _). unfold t_calls, t_more in Hs. cbn in Hs. repeat (apply elem_of_cons in Hs as [-> |Hs]; [vm_compute; exact I|]). inversion Hs. }
  assert (G : registered (fun i => known_agent m3 i = true) (t_calls ++ t_more)).
  { unfold t_calls, t_more. cbn [app registered invited named carded].
    repeat match goal with |- _ /\ _ => split | |- True => exact I end.
    all: intros s Hs; cbn in Hs; repeat (apply elem_of_cons in Hs as [-> |Hs]; [repeat first [vm_compute; reflexivity|right; left; set_solver|right; right; set_solver|left]|]); inversion Hs. }
  split; [exact A|]. split; [exact B|]. split; [exact G|].
  destruct (finished_ok (fun h => map (fun x => (r_proof x.2, r_revoke x.2)) (map_to_list (h_revs h))) (transact asc hord rord pk mentions m3 id (t_calls ++ t_more))
    [(Some (Dlg 193 1 5 Read (Some (Dlg 91 9 1 Admin None [] 0)) [] 0), Dlg 193 1 5 Read (Some (Dlg 91 9 1 Admin None [] 0)) [] 0)]) as (h & E & Q); [vm_compute; reflexivity|].
  assert (R : revoked_from_above (has_op h)).
  { intros r p Hr Hp. cbn in Hr. apply elem_of_map_to_list in Hr. assert (X : (r_proof r, r_revoke r) ∈ map (fun x : sig * rev => (r_proof x.2, r_revoke x.2)) (map_to_list (h_revs h))).
    { apply elem_of_list_fmap. exists (r_sig r, r). auto. }
    rewrite Q in X. apply elem_of_list_singleton in X. injection X as X1 X2. rewrite X1 in Hp. injection Hp as <-. rewrite X2. left. }
  exists h. split; [exact E|]. split; [exact R|].
  destruct (C35_commits asc hord rord pk mentions m3 (t_calls ++ t_more) h asc_some I0 F0 A B E) as (_ & _ & _ & _ & _ & _ & _ & X). apply X; [exact G|right; exact R].
Qed.

(** A body that makes a group and a document, adds members and removes one: after the transaction the
    client has all of it. *)
Example C35_client_example : acting asc hord rord pk mentions m3 /\ exists h, transact asc hord rord pk mentions m3 alone t_calls = ADone h /\
  (forall x, direct (h_env h) 8 x <-> x ∈ [1; 2; 4]) /\ (forall x, direct (h_env h) 9 x <-> x ∈ [1; 7]) /\ (forall x, direct (h_env h) 10 x <-> x ∈ [1; 8]) /\
  in_key h 10 4 /\ ~ in_key h 9 5.
Proof.
  split; [exact m3_act|].
  destruct (finished_ok (fun h => (bool_decide (people h 8 = list_to_set [1; 2; 4]), bool_decide (people h 9 = list_to_set [1; 7]), bool_decide (people h 10 = list_to_set [1; 8]), keyed h 10 4, keyed h 9 5))
    (txn m3 alone t_calls) (true, true, true, true, false)) as (h & E & Q); [vm_compute; reflexivity|].
  assert (Q1 := f_equal (fun x => x.1.1.1.1) Q). assert (Q2 := f_equal (fun x => x.1.1.1.2) Q). assert (Q3 := f_equal (fun x => x.1.1.2) Q).
  assert (Q4 := f_equal (fun x => x.1.2) Q). assert (Q5 := f_equal (fun x => x.2) Q). cbv beta in *. cbn [fst snd] in *.
  apply bool_decide_eq_true in Q1, Q2, Q3. exists h. split; [exact E|].
  split; [intros x; rewrite (people_iff _ _ _ Q1); apply elem_of_list_to_set|]. split; [intros x; rewrite (people_iff _ _ _ Q2); apply elem_of_list_to_set|].
  split; [intros x; rewrite (people_iff _ _ _ Q3); apply elem_of_list_to_set|]. rewrite <- !keyed_in. split; [exact Q4|congruence].
Qed.

(** A body that receives a grant from somebody else: the fork has the new member, and nothing of it
    reaches the client, because the listener is not told of delegations that are received. *)
Theorem C35_received_refuted : exists h f h', acting asc hord rord pk mentions h /\ forked asc hord rord pk mentions h [TReceive t_grant] f [] /\ direct (h_env f) 9 3 /\
  transact asc hord rord pk mentions h alone [TReceive t_grant] = ADone h' /\ ~ direct (h_env h') 9 3.
Proof.
  destruct (fork_run_ok (fun x => (bool_decide (3 ∈ people x.1 9), length x.2)) k2 [TReceive t_grant] (true, 0)) as (f & log & R & Q); [vm_compute; reflexivity|].
  destruct (finished_ok (fun h => bool_decide (3 ∈ people h 9)) (txn k2 alone [TReceive t_grant]) false) as (h' & E & Q'); [vm_compute; reflexivity|].
  injection Q as Q1 Q2. apply bool_decide_eq_true in Q1. apply bool_decide_eq_false in Q'. destruct log; [|discriminate Q2].
  exists k2, f, h'. rewrite !people_direct. split; [exact k2_act|]. split; [exact R|]. split; [exact Q1|]. split; [exact E|exact Q'].
Qed.
Print Assumptions C35_received_refuted.
(** A body that receives an invalid revocation: receiving it is an error that changes nothing, and the
    body ends well, but the listener was told: merging panics. *)
Theorem C35_rejected_refuted : exists h e, acting asc hord rord pk mentions h /\
  (receive_event asc mentions do_doc do_ok (doc_receive hord rord) h t_revoke).2 = HFail e /\
  (exists f log, forked asc hord rord pk mentions h [TReceive t_revoke] f log) /\
  transact asc hord rord pk mentions h alone [TReceive t_revoke] = AMergePanics.
Proof.
  destruct (fork_run_ok (fun x => length x.2) k2 [TReceive t_revoke] 1) as (f & log & R & _); [vm_compute; reflexivity|].
  exists k2, (HAdd EInvalidProofChain). split; [exact k2_act|]. split; [vm_compute; reflexivity|]. split; [exists f, log; exact R|]. apply panics_ok. vm_compute. reflexivity.
Qed.
Print Assumptions C35_rejected_refuted.
(** A body that gives an agent access that the client has no record of (the API takes agents, not
    identifiers): the calls succeed on the fork, and merging panics. *)
Theorem C35_unregistered_refuted : exists h, acting asc hord rord pk mentions h /\
  (exists f log, forked asc hord rord pk mentions h [TGroup 8 [(1, 190); (77, 191)] 0] f log) /\
  transact asc hord rord pk mentions h alone [TGroup 8 [(1, 190); (77, 191)] 0] = AMergePanics /\
  (exists f log, forked asc hord rord pk mentions h [TAdd 7 77 Relay 0 190 (digests 120)] f log) /\
  transact asc hord rord pk mentions h alone [TAdd 7 77 Relay 0 190 (digests 120)] = AMergePanics.
Proof.
  destruct (fork_run_ok (fun x => length x.2) m3 [TGroup 8 [(1, 190); (77, 191)] 0] 2) as (f & log & R & _); [vm_compute; reflexivity|].
  destruct (fork_run_ok (fun x => length x.2) m3 [TAdd 7 77 Relay 0 190 (digests 120)] 1) as (f' & log' & R' & _); [vm_compute; reflexivity|].
  exists m3. split; [exact m3_act|]. split; [exists f, log; exact R|]. split; [apply panics_ok; vm_compute; reflexivity|]. split; [exists f', log'; exact R'|]. apply panics_ok. vm_compute. reflexivity.
Qed.
Print Assumptions C35_unregistered_refuted.
(** While the body adds a member, the client learns that its own access has ended: merging panics.
    Without that event the transaction ends well. *)
Theorem C35_race_refuted : exists h h', acting asc hord rord pk mentions h /\
  transact asc hord rord pk mentions h alone e_calls = ADone h' /\ direct (h_env h') 9 3 /\
  transact asc hord rord pk mentions h (fun h => (receive_event asc mentions do_doc do_ok (doc_receive hord rord) h e_out).1) e_calls = AMergePanics.
Proof.
  destruct (finished_ok (fun h => bool_decide (3 ∈ people h 9)) (txn e2 alone e_calls) true) as (h' & E & Q); [vm_compute; reflexivity|]. apply bool_decide_eq_true in Q.
  exists e2, h'. rewrite people_direct. split; [exact e2_act|]. split; [exact E|]. split; [exact Q|]. apply panics_ok. vm_compute. reflexivity.
Qed.
Print Assumptions C35_race_refuted.
(** A body that updates the key of a document: the new secret stays on the fork, and the client cannot
    encrypt any more. *)
Theorem C35_secret_refuted : exists h f log h', acting asc hord rord pk mentions h /\ forked asc hord rord pk mentions h [TUpdate 9 300 301 (seq 310 10)] f log /\
  (exists x, (hive_encrypt hord rord h 9 2 [43] [] 46 61 (seq 80 10)).2 = DOk x) /\ (exists x, (hive_encrypt hord rord f 9 2 [43] [] 46 61 (seq 80 10)).2 = DOk x) /\
  transact asc hord rord pk mentions h alone [TUpdate 9 300 301 (seq 310 10)] = ADone h' /\ exists e, (hive_encrypt hord rord h' 9 2 [43] [] 46 61 (seq 80 10)).2 = DErr e.
Proof.
  destruct (fork_run_ok (fun x => may_encrypt x.1) k2 [TUpdate 9 300 301 (seq 310 10)] true) as (f & log & R & Q); [vm_compute; reflexivity|].
  destruct (finished_ok may_encrypt (txn k2 alone [TUpdate 9 300 301 (seq 310 10)]) false) as (h' & E & Q'); [vm_compute; reflexivity|].
  assert (Q0 : may_encrypt k2 = true) by (vm_compute; reflexivity). unfold may_encrypt in *. cbn [fst] in Q.
  exists k2, f, log, h'. split; [exact k2_act|]. split; [exact R|]. 
  split; [destruct (enc k2 9 2 [43] [] 46 61 (seq 80 10)).2 as [x|e]; [eauto|discriminate Q0]|].
  split; [destruct (enc f 9 2 [43] [] 46 61 (seq 80 10)).2 as [x|e]; [eauto|discriminate Q]|]. split; [exact E|].
  destruct (enc h' 9 2 [43] [] 46 61 (seq 80 10)).2 as [x|e]; [discriminate Q'|eauto].
Qed.
Print Assumptions C35_secret_refuted.
(** A body that adds Public to a document: when the addition is received, the client takes it for its
    own invitation and goes on as Public.  Once Public is removed again, it can neither read nor encrypt;
    without a transaction it can. *)
Theorem C35_public_refuted : exists h h1 x h2, acting asc hord rord pk mentions h /\
  hive_add_member asc hord rord pk h 9 (ks_public (h_keys h)) Read 0 190 (digests 120) = (h1, DOk x) /\
  transact asc hord rord pk mentions h alone [TAdd 9 (ks_public (h_keys h)) Read 0 190 (digests 120)] = ADone h2 /\
  reads (v_after h1) v2_enc.2 = Some [42] /\ reads (v_after h2) v2_enc.2 = None /\ may_encrypt (v_after h1) = true /\ may_encrypt (v_after h2) = false.
Proof.
  destruct (okb_pair v_add) as (x & E1); [vm_compute; reflexivity|].
  destruct (finished_ok (fun h => (reads (v_after h) v2_enc.2, may_encrypt (v_after h))) (txn v1.1 alone v_calls) (None, false)) as (h2 & E & Q); [vm_compute; reflexivity|].
  assert (Q1 := f_equal fst Q). assert (Q2 := f_equal snd Q). cbv beta in Q1, Q2. cbn [fst snd] in Q1, Q2. clear Q.
  exists v1.1, v_add.1, x, h2. assert (Pu : ks_public (h_keys v1.1) = 0) by (vm_compute; reflexivity). rewrite Pu. clear Pu. split; [exact v1_act|]. split; [unfold v_add in *; exact E1|]. split; [exact E|].
  split; [vm_compute; reflexivity|]. split; [exact Q1|]. split; [vm_compute; reflexivity|exact Q2].
Qed.
Print Assumptions C35_public_refuted.
(** Property C34 again: after an agent that the client has no record of was given access, what is stored cannot be loaded. *)
Theorem C34_unregistered_refuted : exists h a, acting asc hord rord pk mentions h /\ into_archive asc h = Some a /\ try_from_archive asc a = inl (AMissingAgent 77).
Proof.
  exists (addm m3 7 77 Relay 0 190 (digests 120)).1.
  assert (Q : (match into_archive asc (addm m3 7 77 Relay 0 190 (digests 120)).1 with Some a => match try_from_archive asc a with inl (AMissingAgent i) => i | _ => 0 end | None => 0 end) = 77) by (vm_compute; reflexivity).
  destruct (into_archive _ _) as [a|]; [|discriminate Q]. destruct (try_from_archive asc a) as [[?|?|i]|?] eqn:T; try discriminate Q. subst i.
  exists a. split; [eapply ac_add; [exact m3_act|apply surjective_pairing]|]. split; [reflexivity|exact T].
Qed.
Print Assumptions C34_unregistered_refuted.
