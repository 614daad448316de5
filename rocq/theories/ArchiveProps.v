(** Storing a client and bringing it back: C34. *)
From Coq Require Import Arith Lia.
From stdpp Require Import base list gmap relations sorting.
From Verif Require Import AccessModel GroupModel CgkaSpec GroupSpec GroupPropsProofs GroupExamples PrekeyModel HiveModel HiveSpec HiveProofs HivePropsProofs HiveExamples.
From Verif Require Import SyncModel SyncSpec SyncProofs SyncPropsProofs SyncProps ArchiveModel ArchiveSpec ArchiveProofs ArchivePropsProofs.

(** ** The same client comes back *)

(** A client that has everything its operations and groups refer to can be stored and brought back, and is
    then the same: individuals, groups and documents with their heads and members, operations, key
    agreements and pending events.  Only the active revocations are gone. *)
Theorem C34_round_trip order {cg cop} `{EqDecision cop} (h : hive cg cop) : some_order order -> intact h ->
  exists a, into_archive order h = Some a /\ try_from_archive order a = inr (forget h).
Proof. intros O. exact (round_trip order O h). Qed.
Print Assumptions C34_round_trip.
(** Every client that was handed tame events is such a client. *)
Theorem C34_received order doc_content {cg cop} `{EqDecision cop} (h : hive cg cop) W K : some_order order -> client_of order doc_content h W K -> intact h.
Proof. intros O Hc. destruct (client_caught_up _ _ _ _ _ O Hc) as (W' & K' & T & _ & C). exact (caught_up_intact order O doc_content W' K' T h C). Qed.
Print Assumptions C34_received.
(** The operations are stored so that each comes after all that it depends on. *)
Theorem C34_order order {cg cop} `{EqDecision cop} (h : hive cg cop) a : some_order order -> intact h -> into_archive order h = Some a ->
  exists ops, ar_ops a = map stored_op ops /\ (forall o, o ∈ ops <-> has_op h o) /\ forall i j o p, ops !! i = Some o -> ops !! j = Some p -> depends_on o p -> j < i.
Proof.
  intros O I E. destruct (stored_ops order O h I) as (a' & ops & E' & Ea & Hk & Hc). rewrite E in E'. injection E' as <-. exists ops. rewrite Ea. auto.
Qed.
Print Assumptions C34_order.
(** From then on it does what the stored client would have done: the same events are taken, refused and
    left pending, and the two clients stay the same up to active revocations. *)
Theorem C34_goes_on order doc_content {cg cop} `{EqDecision cop} (cop_doc : cop -> ident) cop_ok (cg_receive : kstore -> cg -> cop -> cg * bool) (h h' : hive cg cop) x :
  alike h h' ->
  let (h1, out) := receive_event order doc_content cop_doc cop_ok cg_receive h x in
  let (h1', out') := receive_event order doc_content cop_doc cop_ok cg_receive h' x in out = out' /\ alike h1 h1'.
Proof.
  intros A. pose proof (receive_alike order doc_content cop_doc cop_ok cg_receive h h' x A) as [S1 S2].
  destruct (receive_event _ _ _ _ _ h x), (receive_event _ _ _ _ _ h' x). cbn in S1, S2. split; [exact S2|exact S1].
Qed.
Print Assumptions C34_goes_on.
Theorem C34_goes_on_batches order doc_content {cg cop} `{EqDecision cop} (cop_doc : cop -> ident) cop_ok (cg_receive : kstore -> cg -> cop -> cg * bool) shuffle (h : hive cg cop) a batches :
  some_order order -> intact h -> into_archive order h = Some a ->
  exists b, try_from_archive order a = inr b /\
    match ingest_all order doc_content cop_doc cop_ok cg_receive shuffle h batches, ingest_all order doc_content cop_doc cop_ok cg_receive shuffle b batches with
    | Some h1, Some b1 => alike h1 b1
    | None, None => True
    | _, _ => False
    end.
Proof.
  intros O I E. destruct (round_trip order O h I) as (a' & E' & R). rewrite E in E'. injection E' as <-. exists (forget h). split; [exact R|].
  apply ingest_all_alike. unfold alike. rewrite forget_twice. reflexivity.
Qed.
Print Assumptions C34_goes_on_batches.
(** A group gets its active revocations back when its next operation is taken. *)
Theorem C34_recovers order e g d r : receive_delegation order e (forget_group g) d = receive_delegation order e g d /\
  receive_revocation order e (forget_group g) r = receive_revocation order e g r.
Proof. split; [apply forget_receive_delegation|apply forget_receive_revocation]. Qed.
Print Assumptions C34_recovers.

(** ** Taking over an archive *)

Lemma union_some {A} (f : A -> A -> A) (x y : option A) : is_Some (union_with (fun a b => Some (f a b)) x y) <-> is_Some x \/ is_Some y.
Proof. destruct x, y; cbn; (split; [eauto|]); (intros [[? [=]]|[? [=]]] || intros _); eauto. Qed.

(** A new client of the same agent that takes over an archive has all its operations and groups. *)
Theorem C34_takeover order order' doc_content {cg cop} `{EqDecision cop} (cop_doc : cop -> ident) cop_ok (cg_receive : kstore -> cg -> cop -> cg * bool) cg_pairs shuffle
    (h : hive cg cop) W K a (s : hive cg cop) :
  some_order order -> some_order order' -> (forall l, shuffle l ≡ₚ l) -> client_of order doc_content h W K -> into_archive order h = Some a -> blank s ->
  ks_active (h_keys s) = ks_active (h_keys h) -> (forall i, owner W i -> known_agent s i = false) ->
  exists r left, ingest_archive order' doc_content cop_doc cop_ok cg_receive cg_pairs shuffle s a = Some (r, left) /\
    (forall o, has_op r o <-> has_op h o) /\ (forall x, is_membership x -> x ∉ h_pending r) /\
    (forall i, (exists g, has_group r i g) <-> exists g, has_group h i g) /\
    (revoked_once (has_op h) -> forall i g, has_group h i g -> exists g', has_group r i g' /\ gr_members g = gr_members g' /\ gr_active g = gr_active g').
Proof.
  intros O O' Sh Hc Ea Bl Act Ow. destruct (client_caught_up _ _ _ _ _ O Hc) as (W' & K' & T & EW & C). pose proof (cu_inv _ _ _ _ _ _ C) as I.
  assert (OwW : forall i, owner W' i -> owner W i).
  { intros i (d & Hd & E). exists d. split; [|exact E]. clear -Hd EW. revert Hd. generalize (MD d). fix IH 2. intros o [x p rs Wx Ep Er Hp Hr|x t p Wx Et Ep Ht Hp].
    - apply from_dlg; [apply EW, Wx|exact Ep|exact Er| |]; intros; apply IH; auto.
    - apply from_rev; [apply EW, Wx|exact Et|exact Ep| |]; intros; apply IH; auto. }
  destruct (stored_ops order O h (caught_up_intact order O doc_content W' K' T h C)) as (a' & ops & E' & Eq & Hops & _). rewrite Ea in E'. injection E' as <-.
  unfold ingest_archive. set (s1 := put_cg _ _). rewrite Eq. cbn [ar_ops]. rewrite map_map. rewrite (map_ext _ _ (event_of_stored (cop := cop))).
  assert (Ki : forall i, is_Some (ks_indies (h_keys s1) !! i) <-> is_Some (ks_indies (h_keys s) !! i) \/ is_Some (ks_indies (h_keys h) !! i)).
  { intros i. unfold s1, put_cg, put_keys, merge_keys. cbn. rewrite Eq. cbn [ar_keys]. rewrite lookup_union_with.
    assert (M : is_Some (merge_active (h_keys s) (h_keys h) !! i) <-> is_Some (ks_indies (h_keys s) !! i)).
    { unfold merge_active. destruct (ks_indies (h_keys s) !! ks_active (h_keys s)) as [x|] eqn:X; [|reflexivity]. destruct (ks_indies (h_keys h) !! ks_active (h_keys h)); [|reflexivity].
      destruct (decide (i = ks_active (h_keys s))) as [->|N]; [rewrite lookup_insert, X|rewrite lookup_insert_ne by congruence]; [split; eauto|reflexivity]. }
    rewrite union_some, M. reflexivity. }
  assert (Kn : forall i, known_agent s1 i = true <-> known_agent s i = true \/ is_Some (ks_indies (h_keys h) !! i)).
  { intros i. unfold known_agent. rewrite !orb_true_iff, !bool_decide_eq_true, !Nat.eqb_eq, Ki. change (ks_active (h_keys s1)) with (ks_active (h_keys s)). change (h_docs s1) with (h_docs s). change (h_groups s1) with (h_groups s). tauto. }
  assert (Bl1 : blank s1).
  { destruct Bl as (B1 & B2 & B3 & B4 & B5 & B6 & B7 & B8). repeat (split; [assumption|]). apply Ki. left. exact B8. }
  destruct (takeover_lemma order order' O O' doc_content cop_doc cop_ok cg_receive shuffle Sh W' K' T h C ops Hops s1 Bl1) as (r & R1 & R2 & R3 & R4 & R5).
  - apply Kn. left. rewrite <- Act. unfold known_agent. rewrite Nat.eqb_refl. reflexivity.
  - intros i Hi. apply Kn. auto.
  - intros i Hi. destruct (known_agent s1 i) eqn:Q; [|reflexivity]. apply Kn in Q as [Q|Q]; [rewrite (Ow i (OwW i Hi)) in Q; discriminate|].
    rewrite (owner_not_indie order doc_content W' K' T h i I Hi) in Q. destruct Q; discriminate.
  - cbn [ingest_all] in R1. change (map (λ x : mop, static_of x) ops) with (map (static_of (cop := cop)) ops).
    destruct (ingest order' doc_content cop_doc cop_ok cg_receive shuffle s1 (map static_of ops)) as [[r' l]|]; [|discriminate]. injection R1 as ->. exists r, l. split; [reflexivity|].
    split; [exact R2|]. split; [exact R3|]. split.
    + intros i. split; intros [g G]; [eapply R5, G|destruct (R4 i g G) as (g' & G' & _); eauto].
    + intros Ro i g G. destruct (R4 i g G) as (g' & G' & Q). exists g'. split; [exact G'|apply Q, Ro].
Qed.
Print Assumptions C34_takeover.

(** *** An example *)

(** Stores the client and brings it back. *)
Definition back (h : hv) : option (aerror + hv) := match into_archive asc h with Some a => Some (try_from_archive asc a) | None => None end.
Notation takeover := (ingest_archive asc dc (fun c : Empty_set => match c with end) (fun c : Empty_set => match c with end) (fun _ (x : unit) (_ : Empty_set) => (x, true)) (fun x _ => x) (fun l => l)).
(** The client of [HiveProps.C31_example]: a group with a member removed, a document, three pending
    events.  It meets the conditions; what comes back is not empty. *)
Example C34_example : exists h W K b,
  go asc (fun l => l) (start_client 50) w_batches1 = Some h /\ client_of asc dc h W K /\ intact h /\ back h = Some (inr b) /\
  size (h_dlgs b) = 5 /\ size (h_revs b) = 1 /\ length (h_pending b) = 3 /\ dom (h_docs b) = {[200]} /\
  (dom <$> (gr_members <$> (h_groups b !! 100))) = Some ({[1; 50; 51]} : gset ident).
Proof.
  assert (Q : (fun h => match back h with Some (inr b) => (size (h_dlgs b), size (h_revs b), length (h_pending b), bool_decide (dom (h_docs b) = ({[200]} : gset ident)), bool_decide (dom <$> (gr_members <$> (h_groups b !! 100)) = Some ({[1; 50; 51]} : gset ident))) | _ => (0, 0, 0, false, false) end)
    <$> go asc (fun l => l) (start_client 50) w_batches1 = Some (5, 1, 3, true, true)) by (vm_compute; reflexivity).
  destruct (go asc (fun l => l) (start_client 50) w_batches1) as [h|] eqn:E; [|discriminate Q]. injection Q as Q.
  assert (Hc : client_of asc dc h (handed w_batches1) (fun i => known_agent (start_client 50) i = true)).
  { eexists _, _, _, (fun l => l), (start_client 50), w_batches1. split; [reflexivity|]. split; [apply w_blank|]. split; [reflexivity|]. split; [reflexivity|]. split; [exact (w_tame 50 _ (or_introl eq_refl) w_handed1)|]. exact E. }
  exists h, (handed w_batches1), (fun i => known_agent (start_client 50) i = true). destruct (back h) as [[e|b]|]; try discriminate Q. exists b. injection Q as Q1 Q2 Q3 Q4 Q5. apply bool_decide_eq_true in Q4. apply bool_decide_eq_true in Q5.
  split; [reflexivity|]. split; [exact Hc|]. split; [exact (C34_received asc dc h _ _ asc_some Hc)|]. auto 10.
Qed.

(** A new client of 50 meets the conditions for taking the archive over. *)
Example C34_takeover_example : exists (h : hv) W K a,
  client_of asc dc h W K /\ into_archive asc h = Some a /\ size (h_dlgs h) = 5 /\ blank (start_client 50) /\
  ks_active (h_keys (start_client 50)) = ks_active (h_keys h) /\ forall i, owner W i -> known_agent (start_client 50) i = false.
Proof.
  destruct C34_example as (h & _ & _ & b & E & _ & I & _).
  destruct (C34_round_trip asc h asc_some I) as (a & Ea & _).
  assert (T := w_tame 50 _ (or_introl eq_refl) w_handed1).
  exists h, (handed w_batches1), (fun i => known_agent (start_client 50) i = true), a.
  assert (Q : (fun h => (size (h_dlgs h), ks_active (h_keys h))) <$> go asc (fun l => l) (start_client 50) w_batches1 = Some (5, 50)) by (vm_compute; reflexivity).
  rewrite E in Q. injection Q as Q1 Q2.
  split; [eexists _, _, _, (fun l => l), (start_client 50), w_batches1; split; [reflexivity|]; split; [apply w_blank|]; split; [reflexivity|]; split; [reflexivity|]; split; [exact T|exact E]|].
  split; [exact Ea|]. split; [exact Q1|]. split; [apply w_blank|]. split; [rewrite Q2; reflexivity|].
  intros i Hi. apply (tm_people _ _ T) in Hi as [N _]. apply not_true_is_false. exact N.
Qed.

(** ** What does not come back *)

(** The list of revoked members of a group is empty after coming back. *)
Theorem C34_revoked_refuted : exists h b g g',
  go asc (fun l => l) (start_client 50) w_batches1 = Some h /\ intact h /\ back h = Some (inr b) /\ h_groups h !! 100 = Some g /\ h_groups b !! 100 = Some g' /\
  revoked_members asc g = {[2 := Edit]} /\ revoked_members asc g' = ∅.
Proof.
  destruct C34_example as (h & W & K & b & E & Hc & I & B & _).
  assert (Q : (fun h => bool_decide (revoked_members asc <$> (h_groups h !! 100) = Some ({[2 := Edit]} : gmap ident access))) <$> go asc (fun l => l) (start_client 50) w_batches1 = Some true) by (vm_compute; reflexivity).
  rewrite E in Q. injection Q as Q. apply bool_decide_eq_true in Q. destruct (h_groups h !! 100) as [g|] eqn:G; [|discriminate Q]. injection Q as Q.
  exists h, b, g, (forget_group g). split; [exact E|]. split; [exact I|]. split; [exact B|]. split; [exact G|]. split; [|split; [exact Q|reflexivity]].
  destruct (C34_round_trip asc h asc_some I) as (a & Ea & Ra). unfold back in B. rewrite Ea in B. rewrite Ra in B. injection B as <-. unfold forget. cbn. rewrite lookup_fmap, G. reflexivity.
Qed.
Print Assumptions C34_revoked_refuted.

(** ** Clients that cannot be brought back *)

(** The document 200 is shared with 100, which is known as an individual.  Then it turns out to be a
    group: the individual is dropped, and no group takes its place.  What was stored cannot be loaded. *)
Theorem C34_promoted_refuted : exists h,
  go asc (fun l => l) (start_client 50) [[key 1; key 100; w_doc; w_root]] = Some h /\ h_pending h = [] /\ size (h_dlgs h) = 2 /\ back h = Some (inl (AMissingAgent 100)).
Proof.
  assert (Q : (fun h => (h_pending h, size (h_dlgs h), match back h with Some (inl e) => Some e | _ => None end)) <$> go asc (fun l => l) (start_client 50) [[key 1; key 100; w_doc; w_root]] = Some ([], 2, Some (AMissingAgent 100))) by (vm_compute; reflexivity).
  destruct (go asc (fun l => l) (start_client 50) [[key 1; key 100; w_doc; w_root]]) as [h|]; [|discriminate Q]. injection Q as Q1 Q2 Q3. exists h. destruct (back h) as [[e|]|]; try discriminate. injection Q3 as ->. auto.
Qed.
Print Assumptions C34_promoted_refuted.

(** 1 makes the team 300 an admin of the group 100, and the member 7 of the team removes 1.  No order
    puts the delegation to the team both before the removal (which rests on it) and after it (it rests
    on what is removed): both are left out of what is stored, and so is everything they rest on. *)
Definition c_events : list ev := [key 1; key 7; w_root; grant 30 300 7 Admin None [] 0; grant 31 1 300 Admin (Some 11) [] 0; revoke 32 7 11 (Some 31)].
Theorem C34_cycle_refuted : exists h a,
  go asc (fun l => l) (start_client 50) [c_events] = Some h /\ h_pending h = [] /\ size (h_dlgs h) = 3 /\ size (h_revs h) = 1 /\
  into_archive asc h = Some a /\ length (ar_ops a) = 1 /\ try_from_archive asc a = inl (AMissingDelegation 31).
Proof.
  assert (Q : (fun h => (h_pending h, size (h_dlgs h), size (h_revs h), (fun a => (length (ar_ops a), match try_from_archive asc a with inl e => Some e | _ => None end)) <$> into_archive asc h)) <$> go asc (fun l => l) (start_client 50) [c_events] = Some ([], 3, 1, Some (1, Some (AMissingDelegation 31)))) by (vm_compute; reflexivity).
  destruct (go asc (fun l => l) (start_client 50) [c_events]) as [h|]; [|discriminate Q]. injection Q as Q1 Q2 Q3 Q4. destruct (into_archive asc h) as [a|] eqn:Ea; [|discriminate Q4]. injection Q4 as Q4 Q5. exists h, a.
  destruct (try_from_archive asc a) as [e|]; try discriminate. injection Q5 as ->. auto 10.
Qed.
Print Assumptions C34_cycle_refuted.

(** ** What is not taken over *)

(** Pending events: 12 rests on 11, which has not come yet.  When it comes, the client that was brought
    back takes both; a new client that took the archive over never had 12. *)
Theorem C34_takeover_refuted : exists h a b r left b1 r1,
  go asc (fun l => l) (start_client 50) [[key 1; key 2; w_two]] = Some h /\ into_archive asc h = Some a /\ try_from_archive asc a = inr b /\
  takeover (start_client 50) a = Some (r, left) /\ go asc (fun l => l) b [[w_root]] = Some b1 /\ go asc (fun l => l) r [[w_root]] = Some r1 /\
  h_pending h = [w_two] /\ h_pending r = [] /\ is_Some (h_dlgs b1 !! 12) /\ h_dlgs r1 !! 12 = None.
Proof.
  assert (Q : (fun h => (h_pending h, (fun a => match try_from_archive asc a, takeover (start_client 50) a with
        | inr b, Some (r, _) => match go asc (fun l => l) b [[w_root]], go asc (fun l => l) r [[w_root]] with
                                | Some b1, Some r1 => Some (h_pending r, match h_dlgs b1 !! 12 with Some _ => true | None => false end, match h_dlgs r1 !! 12 with Some _ => true | None => false end)
                                | _, _ => None
                                end
        | _, _ => None
        end) <$> into_archive asc h)) <$> go asc (fun l => l) (start_client 50) [[key 1; key 2; w_two]] = Some ([w_two], Some (Some ([], true, false)))) by (vm_compute; reflexivity).
  destruct (go asc (fun l => l) (start_client 50) [[key 1; key 2; w_two]]) as [h|]; [|discriminate Q]. apply (inj Some) in Q. assert (Q1 := f_equal fst Q). assert (Q2 := f_equal snd Q). cbn [fst snd] in Q1, Q2. clear Q. destruct (into_archive asc h) as [a|] eqn:Ea; [|discriminate Q2]. apply (inj Some) in Q2.
  destruct (try_from_archive asc a) as [|b] eqn:Eb; [discriminate Q2|]. destruct (takeover (start_client 50) a) as [[r l]|] eqn:Er; [|discriminate Q2].
  cbv beta iota in Q2.
  destruct (go asc (fun l => l) b [[w_root]]) as [b1|] eqn:E1; [|discriminate Q2]. destruct (go asc (fun l => l) r [[w_root]]) as [r1|] eqn:E2; [|discriminate Q2]. injection Q2 as A B D. destruct (h_dlgs b1 !! 12) as [x|] eqn:X; [|discriminate B]. destruct (h_dlgs r1 !! 12) as [y|] eqn:Y; [discriminate D|]. clear B D.
  exists h, a, b, r, l, b1, r1. split; [reflexivity|]. split; [exact Ea|]. split; [exact Eb|]. split; [exact Er|]. split; [exact E1|]. split; [exact E2|]. split; [exact Q1|]. split; [exact A|]. split; [eexists; exact X|exact Y].
Qed.
Print Assumptions C34_takeover_refuted.
(** Nobody looks at whose archive it is: taking over that of somebody else mixes their prekeys into one's
    own. *)
Theorem C34_foreign_refuted : exists a r left x,
  into_archive asc (start_client 51) = Some a /\ takeover (start_client 50) a = Some (r, left) /\ ks_indies (h_keys r) !! 50 = Some x /\
  1051 ∈ in_prekeys x /\ exists o, o ∈ in_ops x /\ ko_issuer o <> 50.
Proof.
  assert (Q : (fun a => (fun r => (fun x => bool_decide (1051 ∈ in_prekeys x) && bool_decide (sign 51 (AddKey 1051) ∈ in_ops x)) <$> ks_indies (h_keys r.1) !! 50) <$> takeover (start_client 50) a) <$> into_archive asc (start_client 51) = Some (Some (Some true))) by (vm_compute; reflexivity).
  destruct (into_archive asc (start_client 51)) as [a|]; [|discriminate Q]. injection Q as Q. destruct (takeover (start_client 50) a) as [[r l]|] eqn:Er; [|discriminate Q]. injection Q as Q. cbn [fst] in Q.
  destruct (ks_indies (h_keys r) !! 50) as [x|] eqn:Ex; [|discriminate Q]. injection Q as Q. apply andb_prop in Q as [Q1 Q2]. apply bool_decide_eq_true in Q1. apply bool_decide_eq_true in Q2.
  exists a, r, l, x. split; [reflexivity|]. split; [exact Er|]. split; [exact Ex|]. split; [exact Q1|]. exists (sign 51 (AddKey 1051)). split; [exact Q2|]. cbn. discriminate.
Qed.
Print Assumptions C34_foreign_refuted.
