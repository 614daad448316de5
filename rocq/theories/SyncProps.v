(** What a client offers to another agent: C32. *)
From Coq Require Import Arith Lia.
From stdpp Require Import base list gmap relations sorting.
From Verif Require Import AccessModel GroupModel CgkaSpec GroupSpec GroupPropsProofs GroupExamples PrekeyModel HiveModel HiveSpec HiveProofs HivePropsProofs HiveExamples.
From Verif Require Import SyncModel SyncSpec SyncProofs SyncPropsProofs.

(** A client that has been handed tame events. *)
Definition client_of order doc_content {cg cop} `{EqDecision cop} (h : hive cg cop) (W : sevent cop -> Prop) (K : ident -> Prop) : Prop :=
  exists (cop_doc : cop -> ident) cop_ok (cg_receive : kstore -> cg -> cop -> cg * bool) shuffle (h0 : hive cg cop) batches,
    (forall l, shuffle l ≡ₚ l) /\ blank h0 /\ (forall x, W x <-> handed batches x) /\ (forall i, K i <-> known_agent h0 i = true) /\ tame W K /\
    ingest_all order doc_content cop_doc cop_ok cg_receive shuffle h0 batches = Some h.
Lemma tame_ext {cop} (W W' : sevent cop -> Prop) (K K' : ident -> Prop) : (forall x, W x <-> W' x) -> (forall i, K i <-> K' i) -> tame W K -> tame W' K'.
Proof.
  intros EW EK T. assert (F : forall o, from_events W' o -> from_events W o).
  { fix IH 2. intros o [x p rs Wx Ep Er Hp Hr|x t p Wx Et Ep Ht Hp].
    - apply from_dlg; [apply EW, Wx|exact Ep|exact Er| |]; intros; apply IH; auto.
    - apply from_rev; [apply EW, Wx|exact Et|exact Ep| |]; intros; apply IH; auto. }
  assert (Ow : forall i, owner W' i -> owner W i) by (intros i (d & Hd & E); exists d; auto).
  split.
  - intros x y s A B. apply (tm_digests _ _ T); apply EW; assumption.
  - intros i x y [A A'] [B B']. apply (tm_grants _ _ T i); auto.
  - intros d r A B. apply (tm_after _ _ T); auto.
  - intros d r A B. apply (tm_proof _ _ T); auto.
  - intros d p A B. destruct (tm_chain _ _ T d p (F _ A) B) as [?|X]; [auto|]. right. intros Y. apply X, Ow, Y.
  - intros d p A B. destruct (tm_authority _ _ T d p (F _ A) B) as [?|X]; [auto|]. right. intros Y. apply X, Ow, Y.
  - intros i Hi. destruct (tm_people _ _ T i (Ow i Hi)) as [P1 P2]. split; [rewrite <- EK; exact P1|]. intros o Wo. apply P2, EW, Wo.
Qed.
Lemma client_caught_up order doc_content {cg cop} `{EqDecision cop} (h : hive cg cop) W K : some_order order -> client_of order doc_content h W K ->
  exists W' K', tame W' K' /\ (forall x, W x <-> W' x) /\ caught_up order doc_content W' K' W' h.
Proof.
  intros O (cop_doc & cop_ok & cr & shuffle & h0 & batches & Sh & B & EW & EK & T & E).
  assert (T' : tame (handed batches) (fun i => known_agent h0 i = true)) by (eapply tame_ext; eauto).
  destruct (run_client order O doc_content cop_doc cop_ok cr shuffle Sh h0 batches B T') as (h' & E' & C). rewrite E in E'. injection E' as <-. eauto 10.
Qed.

(** ** What is offered *)

(** The query ends, and gives exactly the operations that the specification says. *)
Theorem C32_offered order doc_content {cg cop} `{EqDecision cop} (h : hive cg cop) W K a : some_order order -> client_of order doc_content h W K -> (forall g, ~ has_group h a g) ->
  exists m, membership_ops order h a = Some m /\ forall s o, m !! s = Some o <-> op_sig o = s /\ offered h a o.
Proof.
  intros O Hc Na. destruct (client_caught_up _ _ _ _ _ O Hc) as (W' & K' & T & _ & C). destruct (membership_ops_spec order O doc_content W' K' T h (cu_inv _ _ _ _ _ _ C) a Na) as (m & E & F & Hm).
  exists m. split; [exact E|]. intros s o. split; [intros Q; split; [apply F, Q|apply Hm; unfold inm; rewrite (F _ _ Q); exact Q]|]. intros [<- Ho]. apply Hm, Ho.
Qed.
Print Assumptions C32_offered.
(** In particular: all that an offered operation depends on; every operation of the groups and
    documents the agent belongs to; the revocations of the agent's delegations; all delegations of the
    groups that offered delegations are for; and nothing that the client does not have. *)
Theorem C32_complete order doc_content {cg cop} `{EqDecision cop} (h : hive cg cop) W K a m : some_order order -> client_of order doc_content h W K -> (forall g, ~ has_group h a g) ->
  membership_ops order h a = Some m ->
  (forall o p, m !! op_sig o = Some o -> depends_on o p -> m !! op_sig p = Some p) /\
  (forall i g o, has_group h i g -> belongs (h_env h) i a -> has_op h o -> op_subject o = i -> m !! op_sig o = Some o) /\
  (forall r, has_op h (MR r) -> d_delegate (r_revoke r) = a -> m !! r_sig r = Some (MR r)) /\
  (forall d x, m !! d_sig d = Some (MD d) -> is_Some (h_groups h !! d_delegate d) -> has_op h (MD x) -> d_subject x = d_delegate d -> m !! d_sig x = Some (MD x)) /\
  (forall s o, m !! s = Some o -> has_op h o).
Proof.
  intros O Hc Na Em. destruct (client_caught_up _ _ _ _ _ O Hc) as (W' & K' & T & _ & C). pose proof (cu_inv _ _ _ _ _ _ C) as I. destruct (membership_ops_spec order O doc_content W' K' T h I a Na) as (m' & E & F & Hm). rewrite Em in E. injection E as <-.
  split; [intros o p Ho Hp; apply Hm; eapply off_parent; [apply Hm, Ho|exact Hp]|]. split; [intros i g o G B Ho Eo; apply Hm; eapply (offered_all order O doc_content W' K' T h I); eauto|].
  split; [intros r Hr Er; apply (Hm (MR r)), off_revoked; auto|]. split; [intros d x Hd [g G] Hx Ex; apply (Hm (MD x)); eapply (offered_team order O doc_content W' K' T h I); [apply (Hm (MD d)), Hd|exact G|exact Hx|exact Ex]|].
  intros s o Ho. apply (offered_op order O doc_content W' K' T h I a), Hm. unfold inm. rewrite (F _ _ Ho). exact Ho.
Qed.
Print Assumptions C32_complete.
(** The prekey operations and the group-key operations that are offered. *)
Theorem C32_keys order doc_content {cg cop} `{EqDecision cop} (doc_ops : cg -> ident -> list cop) (h : hive cg cop) W K a : some_order order -> client_of order doc_content h W K -> (forall g, ~ has_group h a g) ->
  (forall o, o ∈ prekey_ops order h a <-> exists i, offered_keys h a i /\ o ∈ key_ops (h_keys h) i) /\
  (forall c, c ∈ cgka_ops order doc_ops h a <-> exists i, offered_docs h a i /\ c ∈ doc_ops (h_cg h) i).
Proof.
  intros O Hc Na. destruct (client_caught_up _ _ _ _ _ O Hc) as (W' & K' & T & _ & C). pose proof (cu_inv _ _ _ _ _ _ C) as I. split.
  - intros o. rewrite (prekey_ops_in order O h). setoid_rewrite (prekey_agents_lemma order O doc_content W' K' T h I a _ Na). reflexivity.
  - intros c. apply (cgka_ops_lemma order O doc_content doc_ops W' K' T h I a c Na).
Qed.
Print Assumptions C32_keys.
(** A new client that is handed, in any batches and order, what it is offered takes all of it and
    nothing else; nothing stays pending; and it has the same members and active revocations for all
    groups it belongs to (if no delegation was revoked twice).  Needed: everybody who is a delegate of
    an offered delegation is known to the new client, or has a prekey operation among the events, or
    is a group, or a document that the agent belongs to. *)
Theorem C32_taken order order' doc_content {cg cg' cop} `{EqDecision cop} (doc_ops : cg -> ident -> list cop) (cop_doc : cop -> ident) cop_ok (cg_receive : kstore -> cg' -> cop -> cg' * bool) shuffle
    (h : hive cg cop) W K a evs (r0 : hive cg' cop) batches :
  some_order order -> some_order order' -> (forall l, shuffle l ≡ₚ l) -> client_of order doc_content h W K -> (forall g, ~ has_group h a g) ->
  events_for_agent order doc_ops h a = Some evs -> blank r0 -> (forall x, handed batches x <-> x ∈ evs) ->
  (forall i, owner W i -> known_agent r0 i = false /\ forall o, EKey o ∈ evs -> ko_issuer o <> i) ->
  (forall d, offered h a (MD d) -> known_agent r0 (d_delegate d) = true \/ (exists o, EKey o ∈ evs /\ ko_issuer o = d_delegate d) \/
     is_Some (h_groups h !! d_delegate d) \/ (is_Some (h_docs h !! d_delegate d) /\ belongs (h_env h) (d_delegate d) a)) ->
  exists r, ingest_all order' doc_content cop_doc cop_ok cg_receive shuffle r0 batches = Some r /\
    (forall o, has_op r o <-> offered h a o) /\ (forall x, is_membership x -> x ∉ h_pending r) /\
    (forall i g, has_group h i g -> belongs (h_env h) i a -> revoked_once (has_op h) -> exists g', has_group r i g' /\ gr_members g = gr_members g' /\ gr_active g = gr_active g').
Proof.
  intros O O' Sh Hc Na Ev Bl Hb Pe De. destruct (client_caught_up _ _ _ _ _ O Hc) as (W' & K' & T & EW & C).
  assert (Ow : forall i, owner W' i -> owner W i).
  { intros i (d & Hd & E). exists d. split; [|exact E]. clear -Hd EW. revert Hd. generalize (MD d). fix IH 2. intros o [x p rs Wx Ep Er Hp Hr|x t p Wx Et Ep Ht Hp].
    - apply from_dlg; [apply EW, Wx|exact Ep|exact Er| |]; intros; apply IH; auto.
    - apply from_rev; [apply EW, Wx|exact Et|exact Ep| |]; intros; apply IH; auto. }
  eapply (sync_lemma order order' O O' doc_content doc_ops cop_doc cop_ok cg_receive shuffle Sh W' K' T h C a Na evs Ev r0 Bl batches Hb); [|exact De]. intros i Hi. apply Pe, Ow, Hi.
Qed.
Print Assumptions C32_taken.

(** ** All agents at once *)

(** For prekeys and group-key operations the batch query gives what the single query gives. *)
Theorem C32_batch_keys order doc_content {cg cop} `{EqDecision cop} (doc_ops : cg -> ident -> list cop) (h : hive cg cop) W K a : some_order order -> client_of order doc_content h W K ->
  (forall s, prekey_index order h !! a = Some s -> s = prekey_agents order h a) /\
  (forall c, c ∈ cgka_for_agent order doc_ops h a <-> c ∈ cgka_ops order doc_ops h a).
Proof.
  intros O Hc. destruct (client_caught_up _ _ _ _ _ O Hc) as (W' & K' & T & _ & C). pose proof (cu_inv _ _ _ _ _ _ C) as I. split; [intros s; eapply prekey_index_lemma; eauto|]. intros c. eapply cgka_batch_lemma; eauto.
Qed.
Print Assumptions C32_batch_keys.
(** For membership operations it ends, and gives no more than that, except for what the revocations of
    delegations to the agent's groups depend on; and no less, unless a revocation of one of the agent's
    delegations depends on a delegation to a group. *)
Theorem C32_batch_partial order doc_content {cg cop} `{EqDecision cop} (h : hive cg cop) W K : some_order order -> client_of order doc_content h W K ->
  exists x, membership_ops_all order h = Some x /\ forall a, (forall g, ~ has_group h a g) ->
    (forall l o, ops_for_agent order x a = Some l -> o ∈ l -> offered h a o \/
       exists r i g, has_group h i g /\ belongs (h_env h) i a /\ has_op h (MR r) /\ d_delegate (r_revoke r) = i /\ rtc depends_on (MR r) o) /\
    ((forall r d, has_op h (MR r) -> d_delegate (r_revoke r) = a -> rtc depends_on (MR r) (MD d) -> h_groups h !! d_delegate d = None) ->
       forall o, offered h a o -> exists l, ops_for_agent order x a = Some l /\ o ∈ l).
Proof.
  intros O Hc. destruct (client_caught_up _ _ _ _ _ O Hc) as (W' & K' & T & _ & C). pose proof (cu_inv _ _ _ _ _ _ C) as I. destruct (batch_lemma order O doc_content W' K' T h I) as (x & E & _). exists x. split; [exact E|].
  intros a Na. split; [intros l o El Ho; eapply (batch_sound_lemma order O doc_content W' K' T h I); eauto|]. intros N o Ho. eapply (batch_complete_lemma order O doc_content W' K' T h I); eauto.
Qed.
Print Assumptions C32_batch_partial.

(** ** Example: 1 offers to 51 the group 100, where a delegation to 3 was revoked and another one was
    made, and the document 200.  51 takes everything. *)
Notation asked order := (events_for_agent order (fun (_ : unit) (_ : ident) => @nil Empty_set)).
Definition y_edit := grant 12 1 3 Edit (Some 11) [] 0.
Definition y_read := grant 13 1 3 Read (Some 11) [] 0.
Definition y_events : list ev := [key 51; key 3; w_root; y_edit; y_read; w_out; w_doc; w_new].
Definition p_edit : dlg := Dlg 12 1 3 Edit (Some o_root) [] 0.
Definition p_read : dlg := Dlg 13 1 3 Read (Some o_root) [] 0.
Definition p_out : rev := Rev 14 1 p_edit (Some o_root) 0.
Definition p_new : dlg := Dlg 16 1 51 Read (Some o_root) [p_out] 0.
Definition y_ops : list mop := [MD o_root; MD p_edit; MD p_read; MR p_out; MD o_doc; MD p_new].
Lemma y_tame : tame (handed [y_events]) (fun i => known_agent (start_client 1) i = true).
Proof.
  apply (check_tame y_ops y_events _ _ (fun i => known_agent (start_client 1) i)); [| reflexivity | | | | | | | | |].
  - intros x. unfold handed. split; [intros (b & Hb & Hx); apply elem_of_list_singleton in Hb as ->; exact Hx|]. intros H. exists y_events. split; [left|exact H].
  - apply (bool_decide_unpack _). vm_compute. exact I.
  - unfold covers, y_events. repeat apply Forall_cons_2; try apply Forall_nil_2; vm_compute; try exact I; in_list.
  - apply (bool_decide_unpack _). vm_compute. exact I.
  - apply (bool_decide_unpack _). vm_compute. exact I.
  - vm_compute. repeat constructor.
  - intros d Hd q Hq. apply in_chain_lineage in Hq. unfold y_ops in Hd. rewrite !elem_of_cons, elem_of_nil in Hd.
    destruct Hd as [Q|[Q|[Q|[Q|[Q|[Q|[]]]]]]]; try discriminate Q; injection Q as ->; cbn in Hq; rewrite !elem_of_cons, elem_of_nil in Hq; repeat (destruct Hq as [-> |Hq]); try destruct Hq; unfold y_ops; in_list.
  - intros r Hr. unfold y_ops in Hr. rewrite !elem_of_cons, elem_of_nil in Hr. destruct Hr as [Q|[Q|[Q|[Q|[Q|[Q|[]]]]]]]; try discriminate Q; injection Q as ->; unfold y_ops; cbn; in_list.
  - vm_compute. reflexivity.
  - vm_compute. reflexivity.
Qed.
Lemma y_client h : go asc (fun l => l) (start_client 1) [y_events] = Some h -> client_of asc dc h (handed [y_events]) (fun i => known_agent (start_client 1) i = true).
Proof.
  intros E. exists (fun c : Empty_set => match c with end), (fun c : Empty_set => match c with end), (fun _ (x : unit) (_ : Empty_set) => (x, true)), (fun l => l), (start_client 1), [y_events].
  split; [reflexivity|]. split; [apply w_blank|]. split; [reflexivity|]. split; [reflexivity|]. split; [exact y_tame|exact E].
Qed.
Example C32_example : exists h evs r, go asc (fun l => l) (start_client 1) [y_events] = Some h /\ client_of asc dc h (handed [y_events]) (fun i => known_agent (start_client 1) i = true) /\
  asked asc h 51 = Some evs /\ omap ev_sig evs = [11; 12; 13; 14; 15; 16] /\
  (* the hypotheses of [C32_taken] *)
  (forall i, owner (handed [y_events]) i -> known_agent (start_client 51) i = false /\ forall o, EKey o ∈ evs -> ko_issuer o <> i) /\
  (forall d, offered h 51 (MD d) -> known_agent (start_client 51) (d_delegate d) = true \/ (exists o, EKey o ∈ evs /\ ko_issuer o = d_delegate d) \/
     is_Some (h_groups h !! d_delegate d) \/ (is_Some (h_docs h !! d_delegate d) /\ belongs (h_env h) (d_delegate d) 51)) /\
  (* its conclusion *)
  go desc reverse (start_client 51) [evs] = Some r /\ (forall o, has_op r o <-> offered h 51 o) /\ h_pending r = [] /\ size (h_dlgs r) = 5 /\ size (h_revs r) = 1 /\
  (dom <$> (gr_members <$> (h_groups r !! 100))) = Some ({[1; 3; 51]} : gset ident).
Proof.
  assert (Q : (fun h => (asked asc h 51, h_groups h !! 51, h_docs h !! 51, bool_decide (is_Some (h_groups h !! 100)),
     bool_decide (Forall (fun d => d ∈ [1; 3; 51; 100]) (map d_delegate (entries asc (h_dlgs h)))))) <$> go asc (fun l => l) (start_client 1) [y_events] =
     Some (Some ([w_root; y_edit; y_read; w_out; w_doc; w_new] ++ [key 3; key 51; key 1]), None, None, true, true)) by (vm_compute; reflexivity).
  set (evs := [w_root; y_edit; y_read; w_out; w_doc; w_new] ++ [key 3; key 51; key 1]) in *.
  destruct (go asc (fun l => l) (start_client 1) [y_events]) as [h|] eqn:E; [|discriminate Q]. injection Q as Ev N1 N2 [g G]%bool_decide_eq_true De%bool_decide_eq_true. pose proof (y_client h E) as Hc.
  assert (Na : forall g, ~ has_group h 51 g) by (intros g' [X|X]; congruence).
  assert (Ow : forall i, owner (handed [y_events]) i -> i = 100 \/ i = 200).
  { intros i (d & Hd & <-). assert (Hin : MD d ∈ y_ops).
    { apply (from_covered y_ops y_events); [apply (bool_decide_unpack _); vm_compute; exact I|unfold covers, y_events; repeat apply Forall_cons_2; try apply Forall_nil_2; vm_compute; try exact I; in_list|].
      revert Hd. generalize (MD d). fix IH 2. intros o [x p rs Wx Ep Er Hp Hr|x t p Wx Et Ep Ht Hp].
      - apply from_dlg; [destruct Wx as (b & Hb & Hx); apply elem_of_list_singleton in Hb as ->; exact Hx|exact Ep|exact Er| |]; intros; apply IH; auto.
      - apply from_rev; [destruct Wx as (b & Hb & Hx); apply elem_of_list_singleton in Hb as ->; exact Hx|exact Et|exact Ep| |]; intros; apply IH; auto. }
    unfold y_ops in Hin. rewrite !elem_of_cons, elem_of_nil in Hin. destruct Hin as [X|[X|[X|[X|[X|[X|[]]]]]]]; try discriminate X; injection X as ->; vm_compute; auto. }
  assert (P1 : forall i, owner (handed [y_events]) i -> known_agent (start_client 51) i = false /\ forall o, EKey o ∈ evs -> ko_issuer o <> i).
  { intros i Hi. apply Ow in Hi. split; [destruct Hi as [-> | ->]; vm_compute; reflexivity|]. intros o Ho. unfold evs, key in Ho. rewrite elem_of_app, !elem_of_cons, !elem_of_nil in Ho.
    destruct Ho as [[X|[X|[X|[X|[X|[X|[]]]]]]]|[X|[X|[X|[]]]]]; try discriminate X; injection X as ->; cbn; lia. }
  destruct (client_caught_up _ _ _ _ _ asc_some Hc) as (W' & K' & T & _ & C). pose proof (cu_inv _ _ _ _ _ _ C) as Iv.
  assert (P2 : forall d, offered h 51 (MD d) -> known_agent (start_client 51) (d_delegate d) = true \/ (exists o, EKey o ∈ evs /\ ko_issuer o = d_delegate d) \/
     is_Some (h_groups h !! d_delegate d) \/ (is_Some (h_docs h !! d_delegate d) /\ belongs (h_env h) (d_delegate d) 51)).
  { intros d Hd. apply (offered_op asc asc_some dc W' K' T h Iv 51) in Hd. cbn in Hd. assert (X : d_delegate d ∈ [1; 3; 51; 100]).
    { rewrite Forall_forall in De. apply De, elem_of_list_fmap. exists d. split; [reflexivity|]. apply (entries_in asc asc_some). eauto. }
    rewrite !elem_of_cons, elem_of_nil in X. destruct X as [X|[X|[X|[X|[]]]]]; rewrite X.
    - right. left. exists (sign 1 (AddKey 1001)). split; [unfold evs, key; in_list|reflexivity].
    - right. left. exists (sign 3 (AddKey 1003)). split; [unfold evs, key; in_list|reflexivity].
    - left. vm_compute. reflexivity.
    - right. right. left. rewrite G. eauto. }
  assert (Q' : (fun r => (h_pending r, size (h_dlgs r), size (h_revs r), bool_decide (dom <$> (gr_members <$> (h_groups r !! 100)) = Some ({[1; 3; 51]} : gset ident)))) <$> go desc reverse (start_client 51) [evs] = Some ([], 5, 1, true)) by (vm_compute; reflexivity).
  destruct (C32_taken asc desc dc (fun (_ : unit) (_ : ident) => @nil Empty_set) (fun c : Empty_set => match c with end) (fun c : Empty_set => match c with end) (fun _ (x : unit) (_ : Empty_set) => (x, true)) reverse h _ _ 51 evs (start_client 51) [evs]
    asc_some desc_some (fun l => reverse_Permutation l) Hc Na Ev (w_blank 51)) as (r & Er & Ho & _); [|exact P1|exact P2|].
  { intros x. unfold handed. split; [intros (b & Hb & Hx); apply elem_of_list_singleton in Hb as ->; exact Hx|]. intros H. exists evs. split; [left|exact H]. }
  rewrite Er in Q'. injection Q' as R1 R2 R3 R4%bool_decide_eq_true. exists h, evs, r. split; [reflexivity|]. split; [exact Hc|]. split; [exact Ev|]. split; [vm_compute; reflexivity|]. split; [exact P1|]. split; [exact P2|]. split; [exact Er|]. split; [exact Ho|]. auto.
Qed.

(** ** Where it fails *)

(** 2 was removed from the group and 51 was added after that.  51 is not sent the prekeys of 2 and so
    can take neither the delegation to 2 nor the revocation nor the delegation that makes 51 a
    member. *)
Theorem C32_removed_unknown_refuted : exists h evs r, go asc (fun l => l) (start_client 50) [w_events] = Some h /\ tame (handed [w_events]) (fun i => known_agent (start_client 50) i = true) /\
  (dom <$> (gr_members <$> (h_groups h !! 100))) = Some ({[1; 50; 51]} : gset ident) /\
  asked asc h 51 = Some evs /\ go asc (fun l => l) (start_client 51) [evs] = Some r /\
  (dom <$> (gr_members <$> (h_groups r !! 100))) = Some ({[1]} : gset ident) /\ w_new ∈ evs /\ w_new ∈ h_pending r.
Proof.
  assert (Q : (fun h => (bool_decide (dom <$> (gr_members <$> (h_groups h !! 100)) = Some ({[1; 50; 51]} : gset ident)), asked asc h 51)) <$> go asc (fun l => l) (start_client 50) [w_events] =
     Some (true, Some ([w_root; w_two; w_fifty; w_out; w_doc; w_new] ++ [key 51; key 1; key 50]))) by (vm_compute; reflexivity).
  set (evs := [w_root; w_two; w_fifty; w_out; w_doc; w_new] ++ [key 51; key 1; key 50]) in *.
  assert (Q' : (fun r => (bool_decide (dom <$> (gr_members <$> (h_groups r !! 100)) = Some ({[1]} : gset ident)), bool_decide (w_new ∈ h_pending r))) <$> go asc (fun l => l) (start_client 51) [evs] = Some (true, true)) by (vm_compute; reflexivity).
  destruct (go asc (fun l => l) (start_client 50) [w_events]) as [h|]; [|discriminate Q]. injection Q as A1%bool_decide_eq_true A2. destruct (go asc (fun l => l) (start_client 51) [evs]) as [r|] eqn:E; [|discriminate Q']. injection Q' as B1%bool_decide_eq_true B2%bool_decide_eq_true.
  exists h, evs, r. split; [reflexivity|]. split; [apply w_tame; [auto|exact w_handed2]|]. split; [exact A1|]. split; [exact A2|]. split; [exact E|]. split; [exact B1|]. split; [unfold evs; in_list|exact B2].
Qed.
Print Assumptions C32_removed_unknown_refuted.
(** The document 200 is shared with 51 and with the group 100, from which 3 was removed.  51 is not
    sent the revocation.  If 51 knows 3 then 51 sees 3 as a member of the document. *)
Definition z_events : list ev := [key 3; key 51; w_root; y_edit; w_out; w_doc; grant 17 200 51 Read None [] 200].
Definition all_members (h : hv) (i : ident) : option (gset ident) :=
  match (h_docs h ∪ h_groups h) !! i with Some g => dom <$> caps_of asc h g | None => None end.
Theorem C32_removed_seen_refuted : exists h evs r, go asc (fun l => l) (start_client 1) [z_events] = Some h /\ all_members h 200 = Some {[1; 51; 100]} /\
  asked asc h 51 = Some evs /\ w_out ∉ evs /\ go asc (fun l => l) (start_client 51) [[key 3]; evs] = Some r /\ h_pending r = [] /\ all_members r 200 = Some {[1; 3; 51; 100]}.
Proof.
  assert (Q : (fun h => (bool_decide (all_members h 200 = Some {[1; 51; 100]}), asked asc h 51)) <$> go asc (fun l => l) (start_client 1) [z_events] = Some (true, Some ([w_root; y_edit; w_doc; grant 17 200 51 Read None [] 200] ++ [key 51; key 1]))) by (vm_compute; reflexivity).
  set (evs := [w_root; y_edit; w_doc; grant 17 200 51 Read None [] 200] ++ [key 51; key 1]) in *.
  assert (Q' : (fun r => (h_pending r, bool_decide (all_members r 200 = Some {[1; 3; 51; 100]}))) <$> go asc (fun l => l) (start_client 51) [[key 3]; evs] = Some ([], true)) by (vm_compute; reflexivity).
  destruct (go asc (fun l => l) (start_client 1) [z_events]) as [h|]; [|discriminate Q]. injection Q as A1%bool_decide_eq_true A2. destruct (go asc (fun l => l) (start_client 51) [[key 3]; evs]) as [r|] eqn:E; [|discriminate Q']. injection Q' as B1 B2%bool_decide_eq_true.
  exists h, evs, r. split; [reflexivity|]. split; [exact A1|]. split; [exact A2|]. split; [|auto]. apply (bool_decide_unpack (w_out ∉ evs)). vm_compute. exact I.
Qed.
Print Assumptions C32_removed_seen_refuted.
(** The document 300 is a member of the group 100.  51 is a member of the group, but is not sent the
    document, so that its delegation stays pending. *)
Theorem C32_document_member_refuted : exists h evs r, go asc (fun l => l) (start_client 1) [[key 51; w_root; grant 16 1 51 Read (Some 11) [] 0; grant 17 300 1 Admin None [] 300; grant 18 1 300 Read (Some 11) [] 0]] = Some h /\
  h_pending h = [] /\ (dom <$> (gr_members <$> (h_groups h !! 100))) = Some ({[1; 51; 300]} : gset ident) /\
  asked asc h 51 = Some evs /\ go asc (fun l => l) (start_client 51) [evs] = Some r /\
  h_pending r = [grant 18 1 300 Read (Some 11) [] 0] /\ (dom <$> (gr_members <$> (h_groups r !! 100))) = Some ({[1; 51]} : gset ident).
Proof.
  set (l := [key 51; w_root; grant 16 1 51 Read (Some 11) [] 0; grant 17 300 1 Admin None [] 300; grant 18 1 300 Read (Some 11) [] 0]).
  assert (Q : (fun h => (h_pending h, bool_decide (dom <$> (gr_members <$> (h_groups h !! 100)) = Some ({[1; 51; 300]} : gset ident)), asked asc h 51)) <$> go asc (fun l => l) (start_client 1) [l] =
     Some ([], true, Some ([w_root; grant 16 1 51 Read (Some 11) [] 0; grant 18 1 300 Read (Some 11) [] 0] ++ [key 51; key 1]))) by (vm_compute; reflexivity).
  set (evs := [w_root; grant 16 1 51 Read (Some 11) [] 0; grant 18 1 300 Read (Some 11) [] 0] ++ [key 51; key 1]) in *.
  assert (Q' : (fun r => (h_pending r, bool_decide (dom <$> (gr_members <$> (h_groups r !! 100)) = Some ({[1; 51]} : gset ident)))) <$> go asc (fun l => l) (start_client 51) [evs] = Some ([grant 18 1 300 Read (Some 11) [] 0], true)) by (vm_compute; reflexivity).
  destruct (go asc (fun l => l) (start_client 1) [l]) as [h|]; [|discriminate Q]. injection Q as A1 A2%bool_decide_eq_true A3. destruct (go asc (fun l => l) (start_client 51) [evs]) as [r|] eqn:E; [|discriminate Q']. injection Q' as B1 B2%bool_decide_eq_true.
  exists h, evs, r. auto 10.
Qed.
Print Assumptions C32_document_member_refuted.
(** 2 had access to the document through the authority of the group 100 and was removed.  The query for
    2 gives the delegation that makes the group known; the query for all agents does not, and without
    it 2 cannot take the revocation. *)
Theorem C32_batch_refuted : exists h m x l, go asc (fun l => l) (start_client 1) [[key 2; w_root; w_doc; grant 18 1 2 Read (Some 15) [] 0; revoke 19 1 18 (Some 15)]] = Some h /\ h_pending h = [] /\
  membership_ops asc h 2 = Some m /\ membership_ops_all asc h = Some x /\ ops_for_agent asc x 2 = Some l /\
  is_Some (m !! 11) /\ map op_sig l = [15; 18; 19] /\
  exists r r', go asc (fun l => l) (start_client 2) [key 1 :: map static_of (entries asc m)] = Some r /\ is_Some (h_revs r !! 19) /\
    go asc (fun l => l) (start_client 2) [key 1 :: map static_of l] = Some r' /\ h_revs r' !! 19 = None.
Proof.
  set (l := [key 2; w_root; w_doc; grant 18 1 2 Read (Some 15) [] 0; revoke 19 1 18 (Some 15)]).
  assert (Q : (fun h => (h_pending h, (m ← membership_ops asc h 2; op_sig <$> m !! 11), (x ← membership_ops_all asc h; map op_sig <$> ops_for_agent asc x 2),
     (m ← membership_ops asc h 2; (fun r => bool_decide (is_Some (h_revs r !! 19))) <$> go asc (fun l => l) (start_client 2) [key 1 :: map static_of (entries asc m)]),
     (x ← membership_ops_all asc h; l ← ops_for_agent asc x 2; (fun r => h_revs r !! 19) <$> go asc (fun l => l) (start_client 2) [key 1 :: map static_of l]))) <$> go asc (fun l => l) (start_client 1) [l] =
     Some ([], Some 11, Some [15; 18; 19], Some true, Some None)) by (vm_compute; reflexivity).
  destruct (go asc (fun l => l) (start_client 1) [l]) as [h|]; [|discriminate Q]. injection Q as A1 A2 A3 A4 A5. destruct (membership_ops asc h 2) as [m|] eqn:Em; [|discriminate A2]. destruct (membership_ops_all asc h) as [x|] eqn:Ex; [|discriminate A3]. cbn [mbind option_bind] in A2, A3, A4, A5.
  destruct (ops_for_agent asc x 2) as [l2|] eqn:El; [|discriminate A3]. injection A3 as A3. cbn [mbind option_bind] in A5.
  apply fmap_Some in A4 as (r & Er & A4). apply fmap_Some in A5 as (r' & Er' & A5).
  symmetry in A4. apply bool_decide_eq_true in A4. exists h, m, x, l2. split; [reflexivity|]. split; [exact A1|]. split; [exact Em|]. split; [exact Ex|]. split; [exact El|]. split; [apply fmap_Some in A2 as (u & Hu & _); eauto|]. split; [exact A3|]. exists r, r'. auto.
Qed.
Print Assumptions C32_batch_refuted.
