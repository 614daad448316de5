(** Concurrent calls on one client.

    [C50_calls_return_partial]: calls of the kinds in [orderly], made at the same time on a client whose
    groups and documents are not inside one another in circles, all return, whatever the schedule, and
    also if some of them end early.  What is missing is false: [C50_*_refuted]. *)
From Coq Require Import Arith Lia.
From stdpp Require Import base list gmap relations.
From Verif Require Import KeysModel HiveModel DocModel DocExamples LockModel LockSpec LockProofs.

(** C50, for the calls that are [orderly]. *)
Theorem C50_calls_return_partial w css ps : finite_world w -> no_circles w ->
  Forall2 (takes_all w) css ps -> (forall cs c, cs ∈ css -> c ∈ cs -> orderly w c) -> always_return ps.
Proof. apply calls_return. Qed.
Print Assumptions C50_calls_return_partial.

(** One task on its own returns, also with the calls that are not [orderly]. *)
Theorem C50_one_task_returns w cs p : finite_world w -> no_circles w ->
  takes_all w cs p -> (forall c, c ∈ cs -> unhindered w c) -> returns_alone p.
Proof. apply one_task_returns. Qed.
Print Assumptions C50_one_task_returns.

(** ** A client with a document of a team *)

(** The client 1 has the document 10 with the members 1, 2 and the group 20, whose members are 1 and 2. *)
Definition w_team : world :=
  World true 1 (fun i => match i with 10 | 20 => true | _ => false end)
    (fun i => match i with 10 => [1; 20; 2] | 20 => [1; 2] | _ => [] end) [20] [10] [2].

Lemma team_inside a b : b ∈ w_inside w_team a <-> (a = 10 /\ (b = 1 \/ b = 20 \/ b = 2)) \/ (a = 20 /\ (b = 1 \/ b = 2)).
Proof.
  cbn [w_inside w_team]. split.
  - intros I. repeat (destruct a as [|a]; try (by inversion I)); repeat (apply elem_of_cons in I as [-> |I]; [lia|]); inversion I.
  - intros [[-> [-> |[-> | ->]]]|[-> [-> | ->]]]; set_solver.
Qed.
Lemma team_behind a b : behind w_team a b <-> (a = 10 /\ (b = 1 \/ b = 20 \/ b = 2)) \/ (a = 20 /\ (b = 1 \/ b = 2)).
Proof.
  split.
  - induction 1 as [a b I|a b c I _ IH]; apply team_inside in I; lia.
  - intros H. apply tc_once, team_inside, H.
Qed.
Lemma team_item v : w_item w_team v = true <-> v = 10 \/ v = 20.
Proof.
  cbn [w_item w_team]. split; [|intros [-> | ->]; done]. intros E.
  repeat (destruct v as [|v]; try done); lia.
Qed.
Lemma team_finite : finite_world w_team.
Proof. exists [10; 20]. intros a b I%team_inside. set_solver by lia. Qed.
Lemma team_no_circles : no_circles w_team.
Proof. intros a B%team_behind. lia. Qed.

Ltac finds_team := split; [intros v V; rewrite ?elem_of_cons, ?elem_of_nil in V|intros _ v V; rewrite ?elem_of_cons, ?elem_of_nil]; rewrite ?team_behind, ?team_item in *; lia.

Lemma team_members_10 : members_of w_team 10 (under (LItem 10) (walk [20])).
Proof. exists [20]. split; [|done]. finds_team. Qed.
Lemma team_members_20 : members_of w_team 20 (under (LItem 20) (walk [])).
Proof. exists []. split; [|done]. finds_team. Qed.
Lemma team_reaches : reaches w_team (touch LDocs ++ under (LItem 10) (walk [20])).
Proof.
  exists [10], (under (LItem 10) (walk [20]) ++ []). split; [split; [|intros _]; done|]. split; [|done].
  constructor; [apply team_members_10|constructor].
Qed.
Lemma team_picks_20 : picks w_team 20 (touch (LItem 20) ++ under LActive (touch (LIndie 1)) ++ touch (LIndie 2)).
Proof. exists [20; 1; 2]. split; [finds_team|done]. Qed.
Lemma team_picks_2 : picks w_team 2 (touch (LIndie 2)).
Proof. exists [2]. split; [finds_team|done]. Qed.
Lemma no_checks w i : checks w i [].
Proof. exists []. split; [intros m M; inversion M|constructor]. Qed.
Lemma one_dlg w i : changes w i (touch LDlgs).
Proof. apply (ch_dlg w i [] []); [apply no_checks|constructor]. Qed.

(** What some calls take here. *)
Definition p_expand : prog := under LActive (touch LRng ++ touch (LIndie 1) ++ touch LPairs).
Definition p_reach : prog := under LActive (touch LDocs ++ under (LItem 10) (walk [20])).
Definition p_members : prog := under (LItem 10) (walk [20]).
Definition p_new_doc : prog := touch LActive ++ touch LActive ++ under LRng (touch LDlgs ++ under LActive (touch (LIndie 1))) ++ touch LDlgs ++ touch LDocs.
Definition p_new_group : prog := under LActive (under LRng (touch LDlgs)) ++ touch LGroups.
Definition p_add_team : prog := touch LActive ++ under (LItem 10) (touch LDlgs ++ touch (LItem 20) ++ under LActive (touch (LIndie 1)) ++ touch (LIndie 2)).
Definition p_add_two : prog := touch LActive ++ under (LItem 10) (touch LDlgs ++ touch (LIndie 2)).
Definition p_add_with_doc : prog := touch LActive ++ under (LItem 20) (touch (LItem 10) ++ touch LDlgs).
Definition p_encrypt : prog := touch LActive ++ under LRng (touch (LItem 10)).
Definition p_invited : prog := touch LDocs ++ under LActive (touch LPairs ++ touch (LItem 10)).
Definition p_stats : prog :=
  under LActive (touch (LIndie 1)) ++ under LIndies (touch (LIndie 2)) ++ under LDocs (touch (LItem 10)) ++
  under LPending (under LIndies (under LGroups (under LDocs (under LDlgs (touch LRevs))))).
Definition p_stranger : prog := touch LDlgs ++ touch LActive ++ under LGroups (under LDocs (touch LIndies)) ++ touch LDlgs ++ touch LGroups.
Definition p_promote : prog :=
  touch LDlgs ++ touch LActive ++ under LGroups (under LDocs (under LIndies (touch (LIndie 2) ++ touch LDlgs ++ under LRevs (touch LDlgs)))).
Definition p_get_op : prog := under LDlgs (touch LRevs).
Definition p_receive : prog := touch LDlgs ++ touch LActive ++ under LGroups (under (LItem 20) (touch LDlgs)).

Lemma t_expand : takes w_team CExpand p_expand. Proof. reflexivity. Qed.
Lemma t_reach : takes w_team CReachable p_reach. Proof. eexists; split; [apply team_reaches|reflexivity]. Qed.
Lemma t_members : takes w_team (CMembers 10) p_members. Proof. apply team_members_10. Qed.
Lemma t_new_doc : takes w_team (CNewDoc []) p_new_doc.
Proof.
  exists [], [], [1], (under LActive (touch (LIndie 1)) ++ []).
  split; [intros q Q; inversion Q|]. split; [|split; [|split; [|reflexivity]]].
  - split; [intros v V; inversion V|]. intros _ v (I%team_item & a & A & H). apply elem_of_list_singleton in A as ->.
    rewrite team_behind in H. cbn in H. lia.
  - split.
    + intros v ->%elem_of_list_singleton. exists 1. split; [left|by left].
    + intros _ v (a & A & H). apply elem_of_list_singleton in A as ->. rewrite team_behind in H. cbn in H. apply elem_of_list_singleton. lia.
  - constructor; [|constructor]. exists [1]. split; [finds_team|done].
Qed.
Lemma t_new_group : takes w_team (CNewGroup 1) p_new_group. Proof. reflexivity. Qed.
Lemma t_add_team : takes w_team (CAddToDoc 10 20 true []) p_add_team.
Proof. eexists _, _. split; [apply one_dlg|]. split; [apply team_picks_20|reflexivity]. Qed.
Lemma t_add_two : takes w_team (CAddToDoc 10 2 true []) p_add_two.
Proof. eexists _, _. split; [apply one_dlg|]. split; [apply team_picks_2|reflexivity]. Qed.
Lemma t_add_with_doc : takes w_team (CAddToGroup 20 2 false [10]) p_add_with_doc.
Proof. exists (touch LDlgs), [], [10]. split; [apply one_dlg|]. split; [split; done|]. split; [done|]. split; reflexivity. Qed.
Lemma t_encrypt : takes w_team (CEncrypt 10) p_encrypt. Proof. reflexivity. Qed.
Lemma t_invited : takes w_team (CReceiveCgka 10 true) p_invited. Proof. right; right. split; [done|]. left. reflexivity. Qed.
Lemma t_stats : takes w_team CStats p_stats. Proof. exists [2], [10]. repeat split; done. Qed.
Lemma st_dlg : stores (touch LDlgs). Proof. exists [LDlgs]. split; [|reflexivity]. intros l ->%elem_of_list_singleton. by left. Qed.
Lemma st_nil : stores []. Proof. exists []. split; [|reflexivity]. intros l L. inversion L. Qed.
Lemma t_stranger : takes w_team (CReceiveDlg 30 Nowhere) p_stranger.
Proof.
  eexists _, _, _. split; [apply st_dlg|]. split; [by exists 1|]. split; [apply st_nil|].
  eexists _, LGroups. split; [apply st_dlg|]. split; [by right|reflexivity].
Qed.
Lemma t_promote : takes w_team (CReceiveDlg 2 (InIndies 1)) p_promote.
Proof.
  eexists _, _, _. split; [apply st_dlg|]. split; [by exists 1|]. split; [apply st_nil|].
  eexists. split; [|reflexivity]. exists []. split; [apply st_nil|reflexivity].
Qed.
Lemma t_get_op : takes w_team CGetOp p_get_op. Proof. by right. Qed.
Lemma t_receive : takes w_team (CReceiveDlg 20 InGroups) p_receive.
Proof.
  eexists _, _, _. split; [apply st_dlg|]. split; [by exists 1|]. split; [apply st_nil|].
  exists []. split; [apply no_checks|reflexivity].
Qed.

(** Seven tasks at the same time; one makes three calls. *)
Definition many : list (list lcall) :=
  [[CExpand]; [CReachable; CMembers 10; CExpand]; [CAddToDoc 10 2 true []]; [CEncrypt 10]; [CReceiveCgka 10 true]; [CReceiveDlg 20 InGroups]; [CNewGroup 1]].
Lemma one_call w c p : takes w c p -> takes_all w [c] (p ++ []).
Proof. intros T. exists p, []. split; [done|]. split; reflexivity. Qed.
Example C50_calls_return_example : exists ps, Forall2 (takes_all w_team) many ps /\ always_return ps.
Proof.
  eexists. assert (F : Forall2 (takes_all w_team) many
    [p_expand ++ []; p_reach ++ p_members ++ p_expand ++ []; p_add_two ++ []; p_encrypt ++ []; p_invited ++ []; p_receive ++ []; p_new_group ++ []]).
  { constructor; [apply one_call, t_expand|]. constructor.
    { eexists _, _. split; [apply t_reach|]. split; [|reflexivity]. eexists _, _. split; [apply t_members|]. split; [|reflexivity]. apply one_call, t_expand. }
    constructor; [apply one_call, t_add_two|]. constructor; [apply one_call, t_encrypt|]. constructor; [apply one_call, t_invited|].
    constructor; [apply one_call, t_receive|]. constructor; [apply one_call, t_new_group|]. constructor. }
  split; [exact F|]. eapply C50_calls_return_partial; [apply team_finite|apply team_no_circles|exact F|].
  intros cs c. unfold many. rewrite !elem_of_cons, elem_of_nil. intros CS.
  destruct CS as [-> |[-> |[-> |[-> |[-> |[-> |[-> |[]]]]]]]]; rewrite ?elem_of_cons, ?elem_of_nil; intros C;
    repeat (destruct C as [-> |C]; [try exact I|]); try done.
  split; [done|]. split; [apply team_inside; lia|]. intros _. split; [done|]. rewrite team_behind. cbn. lia.
Qed.

Example C50_one_task_returns_example : exists p, takes_all w_team [CNewDoc []; CAddToDoc 10 20 true []; CStats; CReceiveDlg 2 (InIndies 1)] p /\ returns_alone p.
Proof.
  assert (T : takes_all w_team [CNewDoc []; CAddToDoc 10 20 true []; CStats; CReceiveDlg 2 (InIndies 1)] (p_new_doc ++ p_add_team ++ p_stats ++ p_promote ++ [])).
  { eexists _, _. split; [apply t_new_doc|]. split; [|reflexivity]. eexists _, _. split; [apply t_add_team|]. split; [|reflexivity].
    eexists _, _. split; [apply t_stats|]. split; [|reflexivity]. apply one_call, t_promote. }
  eexists. split; [exact T|]. eapply C50_one_task_returns; [apply team_finite|apply team_no_circles|exact T|].
  intros c. rewrite !elem_of_cons, elem_of_nil. intros [-> |[-> |[-> |[-> |[]]]]]; try exact I.
  split; [set_solver|]. apply team_inside. lia.
Qed.

(** ** Calls that wait for one another for ever *)

(** Making a document takes the source of randomness and then the active agent; new prekeys, and a new
    group, take them the other way around. *)
Theorem C50_new_document_and_prekeys_refuted : exists w, finite_world w /\ no_circles w /\
  can_deadlock w [CNewDoc []; CExpand] /\ can_deadlock w [CNewDoc []; CNewGroup 1].
Proof.
  exists w_team. split; [apply team_finite|]. split; [apply team_no_circles|]. split.
  - eapply (show_deadlock _ _ [p_new_doc; p_expand] [0; 0; 0; 0; 0; 0; 0; 1]); [|reflexivity|reflexivity].
    constructor; [apply t_new_doc|constructor; [apply t_expand|constructor]].
  - eapply (show_deadlock _ _ [p_new_doc; p_new_group] [0; 0; 0; 0; 0; 0; 0; 1]); [|reflexivity|reflexivity].
    constructor; [apply t_new_doc|constructor; [apply t_new_group|constructor]].
Qed.
Print Assumptions C50_new_document_and_prekeys_refuted.

(** Adding a group that the client is in to a document takes the document and then the active agent;
    listing the documents that the client can reach, and receiving an invitation to the document, take
    them the other way around. *)
Theorem C50_adding_own_team_refuted : exists w, finite_world w /\ no_circles w /\
  can_deadlock w [CAddToDoc 10 20 true []; CReachable] /\ can_deadlock w [CAddToDoc 10 20 true []; CReceiveCgka 10 true].
Proof.
  exists w_team. split; [apply team_finite|]. split; [apply team_no_circles|]. split.
  - eapply (show_deadlock _ _ [p_add_team; p_reach] [0; 0; 0; 0; 0; 0; 0; 1; 1; 1]); [|reflexivity|reflexivity].
    constructor; [apply t_add_team|constructor; [apply t_reach|constructor]].
  - eapply (show_deadlock _ _ [p_add_team; p_invited] [0; 0; 0; 0; 0; 0; 0; 1; 1; 1; 1; 1]); [|reflexivity|reflexivity].
    constructor; [apply t_add_team|constructor; [apply t_invited|constructor]].
Qed.
Print Assumptions C50_adding_own_team_refuted.

(** Three calls: sealing takes the source of randomness and then the document, adding the own team takes
    the document and then the active agent, and new prekeys take the active agent and then the source of
    randomness. *)
Theorem C50_three_calls_refuted : exists w, finite_world w /\ no_circles w /\
  can_deadlock w [CEncrypt 10; CAddToDoc 10 20 true []; CExpand].
Proof.
  exists w_team. split; [apply team_finite|]. split; [apply team_no_circles|].
  eapply (show_deadlock _ _ [p_encrypt; p_add_team; p_expand] [0; 0; 0; 1; 1; 1; 1; 1; 1; 1; 2]); [|reflexivity|reflexivity].
  constructor; [apply t_encrypt|constructor; [apply t_add_team|constructor; [apply t_expand|constructor]]].
Qed.
Print Assumptions C50_three_calls_refuted.

(** Adding to a group with a document given that the group is in takes the group and then the document; a
    walk through the members of the document takes them the other way around. *)
Theorem C50_relevant_documents_refuted : exists w, finite_world w /\ no_circles w /\
  can_deadlock w [CAddToGroup 20 2 false [10]; CMembers 10].
Proof.
  exists w_team. split; [apply team_finite|]. split; [apply team_no_circles|].
  eapply (show_deadlock _ _ [p_add_with_doc; p_members] [0; 0; 0; 1]); [|reflexivity|reflexivity].
  constructor; [apply t_add_with_doc|constructor; [apply t_members|constructor]].
Qed.
Print Assumptions C50_relevant_documents_refuted.

(** The counts take the individuals and then the groups; receiving a delegation for a group that is not
    known takes the groups and then the individuals. *)
Theorem C50_counts_refuted : exists w, finite_world w /\ no_circles w /\
  can_deadlock w [CStats; CReceiveDlg 30 Nowhere].
Proof.
  exists w_team. split; [apply team_finite|]. split; [apply team_no_circles|].
  eapply (show_deadlock _ _ [p_stats; p_stranger] (replicate 14 0 ++ replicate 6 1)); [|reflexivity|reflexivity].
  constructor; [apply t_stats|constructor; [apply t_stranger|constructor]].
Qed.
Print Assumptions C50_counts_refuted.

(** Turning an individual into a group of which a revocation is stored takes the revocations and then the
    delegations; looking an operation up takes them the other way around. *)
Theorem C50_promotion_refuted : exists w, finite_world w /\ no_circles w /\
  can_deadlock w [CReceiveDlg 2 (InIndies 1); CGetOp].
Proof.
  exists w_team. split; [apply team_finite|]. split; [apply team_no_circles|].
  eapply (show_deadlock _ _ [p_promote; p_get_op] (replicate 12 0 ++ [1])); [|reflexivity|reflexivity].
  constructor; [apply t_promote|constructor; [apply t_get_op|constructor]].
Qed.
Print Assumptions C50_promotion_refuted.

(** Two groups that are members of each other: listing the members of both at the same time. *)
Definition w_circle : world :=
  World true 1 (fun i => match i with 20 | 21 => true | _ => false end)
    (fun i => match i with 20 => [21] | 21 => [20] | _ => [] end) [20; 21] [] [].
Lemma circle_inside a b : b ∈ w_inside w_circle a <-> (a = 20 /\ b = 21) \/ (a = 21 /\ b = 20).
Proof.
  cbn [w_inside w_circle]. split; [|intros [[-> ->]|[-> ->]]; set_solver].
  intros I. repeat (destruct a as [|a]; try (by inversion I)); apply elem_of_list_singleton in I as ->; lia.
Qed.
Lemma circle_behind a b : behind w_circle a b -> (a = 20 \/ a = 21) /\ (b = 20 \/ b = 21).
Proof. induction 1 as [a b I|a b c I _ IH]; apply circle_inside in I; lia. Qed.
Theorem C50_circular_groups_refuted : exists w, finite_world w /\ can_deadlock w [CMembers 20; CMembers 21].
Proof.
  exists w_circle. split; [exists [20; 21]; intros a b I%circle_inside; rewrite !elem_of_cons; lia|].
  eapply (show_deadlock _ _ [under (LItem 20) (walk [21]); under (LItem 21) (walk [20])] [0; 1]); [|reflexivity|reflexivity].
  constructor; [|constructor; [|constructor]].
  - exists [21]. split; [|done]. split; [intros v ->%elem_of_list_singleton; split; [apply tc_once, circle_inside; lia|done]|].
    intros _ v (B%circle_behind & _ & N). apply elem_of_list_singleton. lia.
  - exists [20]. split; [|done]. split; [intros v ->%elem_of_list_singleton; split; [apply tc_once, circle_inside; lia|done]|].
    intros _ v (B%circle_behind & _ & N). apply elem_of_list_singleton. lia.
Qed.
Print Assumptions C50_circular_groups_refuted.

Lemma waits_for_itself l h p q ns Q : l ∈ h -> ~ In (Drop l) p -> follow ns [(h, p ++ Take l :: q)] = Some Q -> ~ all_returned Q.
Proof.
  revert h p. induction ns as [|n ns IH]; intros h p H D F; cbn [follow] in F.
  - injection F as <-. intros A. specialize (A _ ltac:(left)). cbn in A. destruct p; done.
  - destruct n as [|n]; [|destruct n; done]. unfold fire in F. cbn [lookup list_lookup] in F.
    destruct p as [|[k|k] p].
    + cbn [app] in F. destruct (taken [(h, Take l :: q)] l) eqn:T; [done|].
      assert (X : taken [(h, Take l :: q)] l = true) by (apply taken_spec; eexists; split; [left|done]). congruence.
    + cbn [app] in F. destruct (taken _ _); [done|]. eapply IH in F; [done|right; done|]. intros X. apply D. right; done.
    + cbn [app] in F. eapply IH in F; [done| |intros X; apply D; right; done].
      assert (k <> l) by (intros ->; apply D; left; done). clear -H H0.
      induction h as [|x h IHh]; [done|]. cbn [remove1]. destruct (bool_decide (x = k)) eqn:B.
      * apply bool_decide_eq_true in B as ->. apply elem_of_cons in H as [-> |H]; [done|done].
      * apply elem_of_cons in H as [-> |H]; [left|right; apply IHh; done].
Qed.
Lemma takes_twice l h p p' q ns Q : ~ In (Drop l) p' -> follow ns [(h, p ++ Take l :: p' ++ Take l :: q)] = Some Q -> ~ all_returned Q.
Proof.
  intros D. revert h p. induction ns as [|n ns IH]; intros h p F; cbn [follow] in F.
  - injection F as <-. intros A. specialize (A _ ltac:(left)). cbn in A. destruct p; done.
  - destruct n as [|n]; [|destruct n; done]. unfold fire in F. cbn [lookup list_lookup] in F.
    destruct p as [|[k|k] p]; cbn [app] in F.
    + destruct (taken _ _); [done|]. eapply waits_for_itself in F; [done|left|done].
    + destruct (taken _ _); [done|]. eapply IH, F.
    + eapply IH, F.
Qed.
Lemma stores_no_drop q : stores q -> ~ In (Drop LGroups) q.
Proof.
  intros (ls & H & ->) I. apply in_concat in I as (r & I & J). apply elem_of_list_In, elem_of_list_fmap in I as (l & -> & I).
  destruct J as [J|[J|[]]]; [done|]. destruct (H l I) as [-> | ->]; done.
Qed.
(** A revocation for a group that is not known wants a lock that it has itself: the call never returns,
    also if it is the only one. *)
Theorem C50_revocation_of_stranger_refuted w i p : takes w (CReceiveRev i Nowhere) p -> ~ returns_alone p.
Proof.
  intros (q1 & S1 & q & q' & S & _ & ->) (ns & R & F & A).
  eapply (takes_twice LGroups [] q1 ([Take LDocs; Take LIndies] ++ q) _ ns R); [| |exact A].
  - intros [X|[X|X]]; [done|done|]. eapply stores_no_drop; done.
  - rewrite <- F. unfold start_all. cbn [map]. f_equal. f_equal. f_equal. unfold under. cbn [app].
    rewrite <- !app_assoc. cbn [app touch]. reflexivity.
Qed.
Print Assumptions C50_revocation_of_stranger_refuted.
Example C50_revocation_of_stranger_example : exists p, takes w_team (CReceiveRev 30 Nowhere) p.
Proof. eexists. exists []. split; [apply st_nil|]. exists [], []. split; [apply st_nil|]. split; [apply no_checks|reflexivity]. Qed.

(** ** The worlds of clients *)

Lemma world_of_finite h : finite_world (world_of h).
Proof.
  exists (map fst (map_to_list (h_env h))). intros a b. cbn [w_inside world_of]. destruct (h_env h !! a) as [m|] eqn:E; [|intros I; inversion I].
  intros _. apply elem_of_list_fmap. exists (a, m). split; [done|]. apply elem_of_map_to_list, E.
Qed.
Lemma world_of_no_circles h (depth : nat -> nat) :
  bool_decide (map_Forall (fun a m => Forall (fun b => depth a < depth b) (map fst (map_to_list m))) (h_env h)) = true -> no_circles (world_of h).
Proof.
  intros D%bool_decide_eq_true. assert (B : forall a b, behind (world_of h) a b -> depth a < depth b).
  { induction 1 as [a b I|a b c I _ IH]; cbn [w_inside world_of] in I; (destruct (h_env h !! a) as [m|] eqn:E; [|inversion I]);
      specialize (D a m E); cbn in D; rewrite Forall_forall in D; specialize (D b I); lia. }
  intros a H. apply B in H. lia.
Qed.
(** The client [m3] of the examples made a group, a document with the group in it, and added a member. *)
Example m3_world : finite_world (world_of m3) /\ no_circles (world_of m3) /\
  (w_groups (world_of m3), w_docs (world_of m3)) = ([7], [9]) /\ (w_inside (world_of m3) 9, w_inside (world_of m3) 7) = ([1; 7], [1; 3]).
Proof.
  split; [apply world_of_finite|]. split; [apply (world_of_no_circles m3 (fun i => match i with 9 => 0 | 7 => 1 | _ => 2 end)); vm_compute; reflexivity|].
  split; vm_compute; reflexivity.
Qed.
