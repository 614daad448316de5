(** Receiving events: C31 (any order, any batches), C33 (receiving again). *)
From Coq Require Import Arith Lia.
From stdpp Require Import base list gmap relations sorting.
From Verif Require Import AccessModel GroupModel CgkaSpec GroupSpec GroupPropsProofs GroupExamples PrekeyModel HiveModel HiveSpec HiveProofs HivePropsProofs HiveExamples.
From Verif Require PrekeyPropsProofs.

(** ** C31 *)

(** A new client that is handed tame events, in any batches and any order, with repetitions, takes
    exactly the operations that are to be taken, and what stays pending of the membership events is
    exactly the rest. *)
Theorem C31_takes_exactly order doc_content {cg cop} `{EqDecision cop} (cop_doc : cop -> ident) cop_ok (cg_receive : kstore -> cg -> cop -> cg * bool)
    shuffle (h : hive cg cop) batches :
  some_order order -> (forall l, shuffle l ≡ₚ l) -> blank h -> tame (handed batches) (fun i => known_agent h i = true) ->
  exists h', ingest_all order doc_content cop_doc cop_ok cg_receive shuffle h batches = Some h' /\
    (forall o, has_op h' o <-> supported (handed batches) (fun i => known_agent h i = true) o) /\
    (forall x, is_membership x -> x ∈ h_pending h' <->
       handed batches x /\ forall o, supported (handed batches) (fun i => known_agent h i = true) o -> ev_sig x <> Some (op_sig o)).
Proof.
  intros O Sh B T. destruct (run_client order O doc_content cop_doc cop_ok cg_receive shuffle Sh h batches B T) as (h' & E & C).
  exists h'. split; [exact E|]. split; [apply (exact_ops order doc_content _ _ T _ C)|]. intros x. apply (exact_pending order doc_content _ _ T _ x C).
Qed.
Print Assumptions C31_takes_exactly.

(** What the client has for a group is what the replay of the operations on that group gives. *)
Theorem C31_groups_from_ops order doc_content {cg cop} `{EqDecision cop} (cop_doc : cop -> ident) cop_ok (cg_receive : kstore -> cg -> cop -> cg * bool)
    shuffle (h h' : hive cg cop) batches :
  some_order order -> (forall l, shuffle l ≡ₚ l) -> blank h -> tame (handed batches) (fun i => known_agent h i = true) ->
  ingest_all order doc_content cop_doc cop_ok cg_receive shuffle h batches = Some h' ->
  (forall o, has_op h' o -> exists g, has_group h' (op_subject o) g) /\
  (forall i g, has_group h' i g -> exists ops, history order ops g /\ forall o, o ∈ ops <-> has_op h' o /\ op_subject o = i).
Proof.
  intros O Sh B T E0. destruct (run_client order O doc_content cop_doc cop_ok cg_receive shuffle Sh h batches B T) as (h2 & E & C). rewrite E0 in E. injection E as <-.
  pose proof (cu_inv _ _ _ _ _ _ C) as I. split; [apply (iv_subject _ _ _ _ _ I)|]. intros i g G. destruct (group_ops order O doc_content _ _ T h' i g I G) as (ops & H & _ & _ & Ho & _). eauto.
Qed.
Print Assumptions C31_groups_from_ops.

(** Two new clients that are handed the same tame events, each in its own batches and order, end with
    the same delegations, revocations, pending membership events and groups; with the same members
    and active revocations if no delegation is revoked twice; and with the same split into groups and
    documents if each group's key says one thing about that. *)
Theorem C31_converge order order' doc_content {cg cg' cop} `{EqDecision cop} (cop_doc : cop -> ident) cop_ok
    (cg_receive : kstore -> cg -> cop -> cg * bool) (cg_receive' : kstore -> cg' -> cop -> cg' * bool)
    shuffle shuffle' (h : hive cg cop) (h' : hive cg' cop) batches batches' h1 h1' :
  some_order order -> some_order order' -> (forall l, shuffle l ≡ₚ l) -> (forall l, shuffle' l ≡ₚ l) -> blank h -> blank h' ->
  (forall x, handed batches x <-> handed batches' x) ->
  tame (handed batches) (fun i => known_agent h i = true) -> tame (handed batches') (fun i => known_agent h' i = true) ->
  (forall i, known_agent h i = true -> known_agent h' i = true \/ exists o, handed batches (EKey o) /\ ko_issuer o = i) ->
  (forall i, known_agent h' i = true -> known_agent h i = true \/ exists o, handed batches (EKey o) /\ ko_issuer o = i) ->
  ingest_all order doc_content cop_doc cop_ok cg_receive shuffle h batches = Some h1 ->
  ingest_all order' doc_content cop_doc cop_ok cg_receive' shuffle' h' batches' = Some h1' ->
  h_dlgs h1 = h_dlgs h1' /\ h_revs h1 = h_revs h1' /\
  (forall x, is_membership x -> x ∈ h_pending h1 <-> x ∈ h_pending h1') /\
  (forall i, (exists g, has_group h1 i g) <-> exists g, has_group h1' i g) /\
  (revoked_once (has_op h1) -> forall i g, has_group h1 i g -> exists g', has_group h1' i g' /\ gr_members g = gr_members g' /\ gr_active g = gr_active g') /\
  (same_kind doc_content (handed batches) -> dom (h_groups h1) = dom (h_groups h1') /\ dom (h_docs h1) = dom (h_docs h1')).
Proof.
  intros O O' Sh Sh' B B' EW T T' KK KK' R R'.
  destruct (run_client order O doc_content cop_doc cop_ok cg_receive shuffle Sh h batches B T) as (h2 & E & C). rewrite R in E. injection E as <-.
  destruct (run_client order' O' doc_content cop_doc cop_ok cg_receive' shuffle' Sh' h' batches' B' T') as (h2 & E & C'). rewrite R' in E. injection E as <-.
  assert (KK2 : forall i, known_agent h' i = true -> known_agent h i = true \/ exists o, handed batches' (EKey o) /\ ko_issuer o = i).
  { intros i Hi. destruct (KK' i Hi) as [X|(o & A & X)]; [auto|right; exists o; split; [apply EW, A|exact X]]. }
  assert (KK1 : forall i, known_agent h i = true -> known_agent h' i = true \/ exists o, handed batches' (EKey o) /\ ko_issuer o = i).
  { intros i Hi. destruct (KK i Hi) as [X|(o & A & X)]; [auto|right; exists o; split; [apply EW, A|exact X]]. }
  assert (EW' : forall x, handed batches' x <-> handed batches x) by (intros x; symmetry; apply EW).
  split; [eapply (both_dlgs order order' doc_content (handed batches) (handed batches')); eauto|].
  split; [eapply (both_revs order order' doc_content (handed batches) (handed batches')); eauto|].
  split; [intros x; eapply (both_pending order order' doc_content (handed batches) (handed batches')); eauto|].
  split.
  { intros i. split; intros [g G].
    - destruct (both_group order order' O O' doc_content (handed batches) (handed batches') _ _ T T' EW KK KK' h1 h1' C C' i g G) as (g' & G' & _). eauto.
    - destruct (both_group order' order O' O doc_content (handed batches') (handed batches) _ _ T' T EW' KK2 KK1 h1' h1 C' C i g G) as (g' & G' & _). eauto. }
  split.
  { intros Ro i g G. destruct (both_group order order' O O' doc_content (handed batches) (handed batches') _ _ T T' EW KK KK' h1 h1' C C' i g G) as (g' & G' & X). exists g'. split; [exact G'|]. apply X, Ro. }
  intros SK. eapply (both_kinds order order' doc_content (handed batches) (handed batches')); eauto.
Qed.
Print Assumptions C31_converge.

(** Both clients of the example: batches in the wrong order with repetitions, or all at once.  The
    three events that are not to be taken stay pending. *)
Example C31_example : exists h1 h2,
  go asc (fun l => l) (start_client 50) w_batches1 = Some h1 /\ go desc reverse (start_client 51) w_batches2 = Some h2 /\
  tame (handed w_batches1) (fun i => known_agent (start_client 50) i = true) /\ tame (handed w_batches2) (fun i => known_agent (start_client 51) i = true) /\
  (forall x, handed w_batches1 x <-> handed w_batches2 x) /\
  h_dlgs h1 = h_dlgs h2 /\ size (h_dlgs h1) = 5 /\ size (h_revs h2) = 1 /\ length (h_pending h1) = 3 /\ length (h_pending h2) = 3 /\
  (dom <$> (gr_members <$> (h_groups h1 !! 100))) = Some ({[1; 50; 51]} : gset ident) /\ dom (h_docs h2) = {[200]}.
Proof.
  pose proof (w_tame 50 _ (or_introl eq_refl) w_handed1) as T1. pose proof (w_tame 51 _ (or_intror eq_refl) w_handed2) as T2.
  assert (Q1 : (fun h => (size (h_dlgs h), length (h_pending h), bool_decide (dom <$> (gr_members <$> (h_groups h !! 100)) = Some ({[1; 50; 51]} : gset ident)))) <$> go asc (fun l => l) (start_client 50) w_batches1 = Some (5, 3, true)) by (vm_compute; reflexivity).
  assert (Q2 : (fun h => (size (h_revs h), length (h_pending h), bool_decide (dom (h_docs h) = ({[200]} : gset ident)))) <$> go desc reverse (start_client 51) w_batches2 = Some (1, 3, true)) by (vm_compute; reflexivity).
  destruct (go asc (fun l => l) (start_client 50) w_batches1) as [h1|] eqn:E1; [|discriminate Q1]. destruct (go desc reverse (start_client 51) w_batches2) as [h2|] eqn:E2; [|discriminate Q2].
  injection Q1 as A1 A2 A3. injection Q2 as B1 B2 B3. apply bool_decide_eq_true in A3. apply bool_decide_eq_true in B3. exists h1, h2. split; [reflexivity|]. split; [reflexivity|]. split; [exact T1|]. split; [exact T2|].
  assert (EW : forall x, handed w_batches1 x <-> handed w_batches2 x) by (intros x; rewrite w_handed1, w_handed2; reflexivity). split; [exact EW|].
  assert (D : h_dlgs h1 = h_dlgs h2).
  { refine (proj1 (C31_converge asc desc dc _ _ _ _ (fun l => l) reverse (start_client 50) (start_client 51) w_batches1 w_batches2 h1 h2 asc_some desc_some _ _ (w_blank 50) (w_blank 51) EW T1 T2 _ _ E1 E2)).
    - reflexivity.
    - intros l. apply reverse_Permutation.
    - intros i Hi. apply w_known in Hi as [-> | ->]; [left; apply w_known; auto|]. right. exists (sign 50 (AddKey 1050)). split; [|reflexivity]. apply w_handed1. unfold w_events, key. in_list.
    - intros i Hi. apply w_known in Hi as [-> | ->]; [left; apply w_known; auto|]. right. exists (sign 51 (AddKey 1051)). split; [|reflexivity]. apply w_handed1. unfold w_events, key. in_list. }
  auto 10.
Qed.

(** *** Where it fails *)

(** The authority of a team member: 2 belongs to the team 100, which shares the document 200.  2 adds 3
    to the document and 1 removes 2 from the team.  Clients that receive these two in different
    orders disagree for good. *)
Definition team : list ev := [key 1; key 2; key 3; w_root; w_two; w_doc].
Definition by_two := grant 21 2 3 Read (Some 15) [] 0.
Theorem C31_team_order_refuted : exists h1 h2,
  go asc (fun l => l) (start_client 50) [team ++ [by_two; w_out]] = Some h1 /\
  go asc (fun l => l) (start_client 50) [team ++ [w_out; by_two]] = Some h2 /\
  is_Some (h_dlgs h1 !! 21) /\ h_dlgs h2 !! 21 = None /\ h_pending h1 = [] /\ h_pending h2 = [by_two] /\
  (forall x, x ∈ team ++ [by_two; w_out] <-> x ∈ team ++ [w_out; by_two]) /\
  (exists h3, go asc (fun l => l) (start_client 50) [team ++ [w_out; by_two]; team ++ [by_two; w_out]] = Some h3 /\ h_dlgs h3 !! 21 = None).
Proof.
  assert (Q1 : (fun h => (bool_decide (is_Some (h_dlgs h !! 21)), h_pending h)) <$> go asc (fun l => l) (start_client 50) [team ++ [by_two; w_out]] = Some (true, [])) by (vm_compute; reflexivity).
  assert (Q2 : (fun h => (h_dlgs h !! 21, h_pending h)) <$> go asc (fun l => l) (start_client 50) [team ++ [w_out; by_two]] = Some (None, [by_two])) by (vm_compute; reflexivity).
  assert (Q3 : (fun h => h_dlgs h !! 21) <$> go asc (fun l => l) (start_client 50) [team ++ [w_out; by_two]; team ++ [by_two; w_out]] = Some None) by (vm_compute; reflexivity).
  destruct (go asc (fun l => l) (start_client 50) [team ++ [by_two; w_out]]) as [h1|]; [|discriminate Q1]. destruct (go asc (fun l => l) (start_client 50) [team ++ [w_out; by_two]]) as [h2|]; [|discriminate Q2].
  destruct (go asc (fun l => l) (start_client 50) [team ++ [w_out; by_two]; team ++ [by_two; w_out]]) as [h3|]; [|discriminate Q3].
  injection Q1 as A1 A2. injection Q2 as B1 B2. injection Q3 as C1. apply bool_decide_eq_true in A1. exists h1, h2. do 6 (split; [auto|]). split; [intros x; rewrite !elem_of_app, !elem_of_cons; tauto|]. eauto.
Qed.
Print Assumptions C31_team_order_refuted.

(** Prekeys of a group: when they arrive before its first delegation the group is not created. *)
Theorem C31_prekey_first_refuted : exists h1 h2,
  go asc (fun l => l) (start_client 50) [[key 1; w_root; key 100]] = Some h1 /\
  go asc (fun l => l) (start_client 50) [[key 1; key 100; w_root]] = Some h2 /\
  h_pending h1 = [] /\ h_pending h2 = [] /\ is_Some (h_dlgs h2 !! 11) /\
  (exists g, has_group h1 100 g) /\ known_agent h2 100 = false /\ ~ exists g, has_group h2 100 g.
Proof.
  assert (Q1 : (fun h => (h_pending h, bool_decide (is_Some (h_groups h !! 100)))) <$> go asc (fun l => l) (start_client 50) [[key 1; w_root; key 100]] = Some ([], true)) by (vm_compute; reflexivity).
  assert (Q2 : (fun h => (h_pending h, bool_decide (is_Some (h_dlgs h !! 11)), known_agent h 100, h_groups h !! 100, h_docs h !! 100)) <$> go asc (fun l => l) (start_client 50) [[key 1; key 100; w_root]] = Some ([], true, false, None, None)) by (vm_compute; reflexivity).
  destruct (go asc (fun l => l) (start_client 50) [[key 1; w_root; key 100]]) as [h1|]; [|discriminate Q1]. destruct (go asc (fun l => l) (start_client 50) [[key 1; key 100; w_root]]) as [h2|]; [|discriminate Q2].
  injection Q1 as A1 A2. injection Q2 as B1 B2 B3 B4 B5. apply bool_decide_eq_true in A2 as [g A2]. apply bool_decide_eq_true in B2. exists h1, h2. do 5 (split; [auto|]). split; [exists g; left; exact A2|]. split; [exact B3|].
  intros (g' & [G|G]); congruence.
Qed.
Print Assumptions C31_prekey_first_refuted.

(** After that a revocation for the group makes the client hang. *)
Theorem C31_revocation_hangs_refuted :
  go asc (fun l => l) (start_client 50) [[key 1; key 100; w_root]; [revoke 22 100 11 None]] = None /\
  exists h, go asc (fun l => l) (start_client 50) [[key 1; key 100; w_root]] = Some h /\ (take asc h (revoke 22 100 11 None)).2 = HHang.
Proof.
  split; [vm_compute; reflexivity|].
  assert (Q : (fun h => (take asc h (revoke 22 100 11 None)).2) <$> go asc (fun l => l) (start_client 50) [[key 1; key 100; w_root]] = Some HHang) by (vm_compute; reflexivity).
  destruct (go asc (fun l => l) (start_client 50) [[key 1; key 100; w_root]]) as [h|]; [|discriminate Q]. injection Q as Q. eauto.
Qed.
Print Assumptions C31_revocation_hangs_refuted.

(** And with the prekey event repeated in between a delegation can make the client panic. *)
Theorem C31_panic_refuted : exists h,
  go asc (fun l => l) (start_client 50) [[key 1; key 100; w_root]; [key 100]; [revoke 22 100 11 None]; [key 100]] = Some h /\
  (take asc h (grant 23 100 50 Read None [] 0)).2 = HPanic.
Proof.
  assert (Q : (fun h => (take asc h (grant 23 100 50 Read None [] 0)).2) <$> go asc (fun l => l) (start_client 50) [[key 1; key 100; w_root]; [key 100]; [revoke 22 100 11 None]; [key 100]] = Some HPanic) by (vm_compute; reflexivity).
  destruct (go asc (fun l => l) (start_client 50) _) as [h|]; [|discriminate Q]. injection Q as Q. eauto.
Qed.
Print Assumptions C31_panic_refuted.

(** Two groups that contain each other: an operation signed by a member of the inner one hangs. *)
Definition circle : list ev := [key 1; key 2; grant 31 100 1 Admin None [] 0; grant 32 101 2 Admin None [] 0; grant 33 100 101 Admin None [] 0; grant 34 101 100 Admin None [] 0].
Theorem C31_circle_hangs_refuted : exists h,
  go asc (fun l => l) (start_client 50) [circle] = Some h /\ h_pending h = [] /\
  (take asc h (grant 35 2 50 Read (Some 33) [] 0)).2 = HHang.
Proof.
  assert (Q : (fun h => (h_pending h, (take asc h (grant 35 2 50 Read (Some 33) [] 0)).2)) <$> go asc (fun l => l) (start_client 50) [circle] = Some ([], HHang)) by (vm_compute; reflexivity).
  destruct (go asc (fun l => l) (start_client 50) _) as [h|]; [|discriminate Q]. injection Q as Q1 Q2. eauto.
Qed.
Print Assumptions C31_circle_hangs_refuted.

(** The first delegation that arrives decides whether the group is a document. *)
Theorem C31_kind_order_refuted : exists h1 h2,
  go asc (fun l => l) (start_client 50) [[key 1; grant 41 100 1 Admin None [] 100; grant 42 100 50 Admin None [] 0]] = Some h1 /\
  go asc (fun l => l) (start_client 50) [[key 1; grant 42 100 50 Admin None [] 0; grant 41 100 1 Admin None [] 100]] = Some h2 /\
  h_pending h1 = [] /\ h_pending h2 = [] /\ is_Some (h_docs h1 !! 100) /\ h_docs h2 = ∅ /\ is_Some (h_groups h2 !! 100).
Proof.
  assert (Q1 : (fun h => (h_pending h, bool_decide (is_Some (h_docs h !! 100)))) <$> go asc (fun l => l) (start_client 50) [[key 1; grant 41 100 1 Admin None [] 100; grant 42 100 50 Admin None [] 0]] = Some ([], true)) by (vm_compute; reflexivity).
  assert (Q2 : (fun h => (h_pending h, bool_decide (dom (h_docs h) = (∅ : gset ident)), bool_decide (is_Some (h_groups h !! 100)))) <$> go asc (fun l => l) (start_client 50) [[key 1; grant 42 100 50 Admin None [] 0; grant 41 100 1 Admin None [] 100]] = Some ([], true, true)) by (vm_compute; reflexivity).
  destruct (go asc (fun l => l) (start_client 50) [[key 1; grant 41 100 1 Admin None [] 100; grant 42 100 50 Admin None [] 0]]) as [h1|]; [|discriminate Q1].
  destruct (go asc (fun l => l) (start_client 50) [[key 1; grant 42 100 50 Admin None [] 0; grant 41 100 1 Admin None [] 100]]) as [h2|]; [|discriminate Q2].
  injection Q1 as A1 A2. injection Q2 as B1 B2 B3. apply bool_decide_eq_true in A2. apply bool_decide_eq_true in B3. apply bool_decide_eq_true, dom_empty_inv_L in B2. exists h1, h2. auto 10.
Qed.
Print Assumptions C31_kind_order_refuted.

(** Two tasks that ingest at the same time: both read the pending events, then one finishes, then the
    other.  The event that the first one had to put aside is lost: what it waits for arrives, and it
    is neither taken nor pending. *)
Theorem C31_concurrent_refuted : exists h1 h2 h3,
  one asc (h_pending (start_client 50)) (fun l => l) (start_client 50) [w_two] = Some (h1, [w_two]) /\
  one asc (h_pending (start_client 50)) (fun l => l) h1 [w_fifty] = Some (h2, [w_fifty]) /\
  go asc (fun l => l) h2 [[key 1; key 2; w_root]] = Some h3 /\
  h_dlgs h3 !! 12 = None /\ w_two ∉ h_pending h3 /\
  (exists h4, go asc (fun l => l) (start_client 50) [[w_two]; [w_fifty]; [key 1; key 2; w_root]] = Some h4 /\ is_Some (h_dlgs h4 !! 12)).
Proof.
  assert (Q1 : (fun h => h.2) <$> one asc (h_pending (start_client 50)) (fun l => l) (start_client 50) [w_two] = Some [w_two]) by (vm_compute; reflexivity).
  assert (Q2 : one asc (h_pending (start_client 50)) (fun l => l) (start_client 50) [w_two] ≫= (fun h1 => (fun h => h.2) <$> one asc (h_pending (start_client 50)) (fun l => l) h1.1 [w_fifty]) = Some [w_fifty]) by (vm_compute; reflexivity).
  assert (Q3 : one asc (h_pending (start_client 50)) (fun l => l) (start_client 50) [w_two] ≫= (fun h1 => one asc (h_pending (start_client 50)) (fun l => l) h1.1 [w_fifty] ≫= (fun h2 =>
    (fun h => (h_dlgs h !! 12, bool_decide (w_two ∈ h_pending h))) <$> go asc (fun l => l) h2.1 [[key 1; key 2; w_root]])) = Some (None, false)) by (vm_compute; reflexivity).
  assert (Q4 : (fun h => bool_decide (is_Some (h_dlgs h !! 12))) <$> go asc (fun l => l) (start_client 50) [[w_two]; [w_fifty]; [key 1; key 2; w_root]] = Some true) by (vm_compute; reflexivity).
  destruct (go asc (fun l => l) (start_client 50) _) as [h4|]; [|discriminate Q4]. injection Q4 as Q4. apply bool_decide_eq_true in Q4.
  destruct (one asc (h_pending (start_client 50)) (fun l => l) (start_client 50) [w_two]) as [[h1 p1]|]; [|discriminate Q1]. cbn [mbind option_bind fst] in Q2, Q3. injection Q1 as Q1. cbn in Q1. subst p1.
  destruct (one asc (h_pending (start_client 50)) (fun l => l) h1 [w_fifty]) as [[h2 p2]|] eqn:E2; [|discriminate Q2]. cbn [mbind option_bind fst] in Q3. injection Q2 as Q2. cbn in Q2. subst p2.
  destruct (go asc (fun l => l) h2 _) as [h3|] eqn:E3; [|discriminate Q3]. injection Q3 as A B. apply bool_decide_eq_false in B. exists h1, h2, h3. split; [reflexivity|]. split; [exact E2|]. split; [exact E3|]. split; [exact A|]. split; [exact B|]. eauto.
Qed.
Print Assumptions C31_concurrent_refuted.

(** ** C33 *)

(** A delegation or revocation that was taken once is ignored ever after, whatever else arrives. *)
Theorem C33_membership order doc_content {cg cop} `{EqDecision cop} (cop_doc : cop -> ident) cop_ok (cg_receive : kstore -> cg -> cop -> cg * bool) (h : hive cg cop) x h1 l :
  receive_event order doc_content cop_doc cop_ok cg_receive h x = (h1, HDone) -> is_membership x ->
  let h2 := foldl (fun h x => (receive_event order doc_content cop_doc cop_ok cg_receive h x).1) h1 l in
  receive_event order doc_content cop_doc cop_ok cg_receive h2 x = (h2, HDone).
Proof. apply received_again. Qed.
Print Assumptions C33_membership.
(** Operations once taken stay. *)
Theorem C33_kept order doc_content {cg cop} `{EqDecision cop} (cop_doc : cop -> ident) cop_ok (cg_receive : kstore -> cg -> cop -> cg * bool) (h : hive cg cop) l s :
  let h2 := foldl (fun h x => (receive_event order doc_content cop_doc cop_ok cg_receive h x).1) h l in
  (forall d, h_dlgs h !! s = Some d -> h_dlgs h2 !! s = Some d) /\ (forall r, h_revs h !! s = Some r -> h_revs h2 !! s = Some r).
Proof. destruct (receive_many_grows order doc_content cop_doc cop_ok cg_receive l h) as [A B]. split; [apply A|apply B]. Qed.
Print Assumptions C33_kept.
(** A prekey operation received twice in a row, or as long as its holder has it. *)
Theorem C33_prekey order doc_content {cg cop} `{EqDecision cop} (cop_doc : cop -> ident) cop_ok (cg_receive : kstore -> cg -> cop -> cg * bool) (h h1 : hive cg cop) o :
  verifies o = true -> receive_event order doc_content cop_doc cop_ok cg_receive h (EKey o) = (h1, HDone) ->
  receive_event order doc_content cop_doc cop_ok cg_receive h1 (EKey o) = (h1, HDone).
Proof.
  intros V. cbn. unfold receive_key_event. destruct (receive_prekey_op (h_keys h) o) as [k e] eqn:E. intros [= <- Q]. assert (e = None) as -> by (destruct e; [discriminate|reflexivity]). cbn.
  rewrite (prekey_at_once _ _ _ E V). reflexivity.
Qed.
Print Assumptions C33_prekey.
Theorem C33_prekey_kept order doc_content {cg cop} `{EqDecision cop} (cop_doc : cop -> ident) cop_ok (cg_receive : kstore -> cg -> cop -> cg * bool) (h : hive cg cop) o x :
  verifies o = true -> PrekeyPropsProofs.known (h_keys h) (ko_issuer o) = Some x -> in_id x = ko_issuer o -> o ∈ in_ops x -> in_prekeys x = build (in_ops x) ->
  receive_event order doc_content cop_doc cop_ok cg_receive h (EKey o) = (h, HDone).
Proof. intros V K I O P. cbn. unfold receive_key_event. rewrite (prekey_again_store _ _ _ K I O P V). destruct h; reflexivity. Qed.
Print Assumptions C33_prekey_kept.
Example C33_example : exists h, go asc (fun l => l) (start_client 50) w_batches1 = Some h /\
  take asc h w_two = (h, HDone) /\ take asc h w_out = (h, HDone) /\ take asc h (key 1) = (h, HDone).
Proof.
  destruct (go asc (fun l => l) (start_client 50) w_batches1) as [h|] eqn:E; [|assert (Q : (fun _ => tt) <$> go asc (fun l => l) (start_client 50) w_batches1 = Some tt) by (vm_compute; reflexivity); rewrite E in Q; discriminate Q].
  exists h. split; [reflexivity|].
  assert (Q : (fun h => (bool_decide (is_Some (h_dlgs h !! 12)), bool_decide (is_Some (h_revs h !! 14)), match PrekeyPropsProofs.known (h_keys h) 1 with Some x => (in_id x =? 1) && bool_decide (sign 1 (AddKey 1001) ∈ in_ops x) && bool_decide (in_prekeys x = build (in_ops x)) | None => false end)) <$> go asc (fun l => l) (start_client 50) w_batches1 = Some (true, true, true)) by (vm_compute; reflexivity).
  rewrite E in Q. injection Q as A B C. split; [cbn; unfold receive_dlg; cbn [sd_sig]; rewrite A; reflexivity|]. split; [cbn; unfold receive_rev; cbn [sr_sig]; rewrite B; reflexivity|].
  destruct (PrekeyPropsProofs.known (h_keys h) 1) as [x|] eqn:X; [|discriminate C]. apply andb_prop in C as [C C3]. apply andb_prop in C as [C1 C2].
  apply (C33_prekey_kept asc dc _ _ _ h (sign 1 (AddKey 1001)) x eq_refl X); [apply Nat.eqb_eq, C1|apply bool_decide_eq_true in C2; exact C2|apply bool_decide_eq_true in C3; exact C3].
Qed.
(** But once the individual has been dropped, the same prekey operation brings it back. *)
Theorem C33_prekey_refuted : exists h h1,
  go asc (fun l => l) (start_client 50) [[key 1; key 100; w_root]] = Some h /\ take asc h (key 100) = (h1, HDone) /\
  known_agent h 100 = false /\ known_agent h1 100 = true.
Proof.
  assert (Q : (fun h => (known_agent h 100, known_agent (take asc h (key 100)).1 100, (take asc h (key 100)).2)) <$> go asc (fun l => l) (start_client 50) [[key 1; key 100; w_root]] = Some (false, true, HDone)) by (vm_compute; reflexivity).
  destruct (go asc (fun l => l) (start_client 50) [[key 1; key 100; w_root]]) as [h|]; [|discriminate Q]. injection Q as A B C. exists h, (take asc h (key 100)).1. split; [reflexivity|].
  split; [rewrite <- C; apply surjective_pairing|]. split; [exact A|exact B].
Qed.
Print Assumptions C33_prekey_refuted.
