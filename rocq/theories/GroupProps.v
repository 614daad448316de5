(** Groups: authority of delegations (C17) and revocations (C18), effect of revocations (C19),
    agreement of replicas (C20), replay order (C21), transitive members (C22) and the individuals
    behind an agent (C23).

    [history order ops g]: a replica accepted the operations [ops] (newest first) and is now in
    state [g]; [order] is the order in which its hash maps are iterated.  [sound ops]: signatures
    identify operations, and no two delegations grant the same access to the same agent on the
    same grounds. *)
From stdpp Require Import base list gmap relations.
From Verif Require Import AccessModel GroupModel CgkaSpec GroupSpec GroupReplay GroupMembers GroupHistory GroupTransitive GroupPropsProofs GroupExamples.

(** ** C17.  A delegation is accepted only if it rests on a chain that starts with the group's own
    key, no link of which has less access, each link signed by the delegate of the link above or by
    a member of it. *)
Theorem C17_accepted_chain order e g d g' : some_order order -> sane e -> receive_delegation order e g d = GOk g' ->
  (exists root, in_chain d root /\ d_proof root = None /\ d_issuer root = gr_id g) /\
  (forall a p, in_chain d a -> rests_on a p ->
     rank (d_can d) <= rank (d_can p) /\ (d_issuer a = d_delegate p \/ belongs e (d_delegate p) (d_issuer a))).
Proof. exact (accepted_chain_lemma order e g d g'). Qed.
Print Assumptions C17_accepted_chain.

(** In every state: a delegation that makes someone a member grants no more than any delegation it
    rests on. *)
Theorem C17_no_escalation order ops g d q : some_order order -> history order ops g -> sound ops -> holds g d -> in_chain d q ->
  MD d ∈ ops /\ rank (d_can d) <= rank (d_can q) /\ exists root, in_chain d root /\ d_proof root = None /\ d_issuer root = gr_id g.
Proof.
  intros O H [U D] Hd C. pose proof (holds_in order O ops g H U D d Hd) as Hin. split; [exact Hin|]. split; [exact (chain_best order ops g H d q Hin C)|].
  destruct (root_of d) as (r & A & B & E). exists r. rewrite E. split; [exact A|]. split; [exact B|]. apply (cs_subject _ _ _ (hist_cons order O ops g H U D) d Hin).
Qed.
Print Assumptions C17_no_escalation.

(** The group's own key can always delegate. *)
Theorem C17_group_may_delegate order e ops g d : some_order order -> history order ops g -> sound (MD d :: ops) ->
  (forall r, r ∈ d_after d -> MR r ∈ ops) -> d_proof d = None -> d_issuer d = gr_id g -> exists g', receive_delegation order e g d = GOk g'.
Proof. exact (group_delegates_lemma order e ops g d). Qed.
Print Assumptions C17_group_may_delegate.
(** A direct delegate can always delegate what they have, or less. *)
Theorem C17_member_may_delegate order e ops g d p : some_order order -> history order ops g -> sound (MD d :: ops) ->
  (forall q, q ∈ parents (MD d) -> q ∈ ops) -> rests_on d p -> d_issuer d = d_delegate p -> rank (d_can d) <= rank (d_can p) -> signed_directly p ->
  exists g', receive_delegation order e g d = GOk g'.
Proof. exact (member_delegates_lemma order e ops g d p). Qed.
Print Assumptions C17_member_may_delegate.
(** [add_member] produces a delegation with the given access, signed by the caller, on the grounds
    of a delegation that is in force; the result is a state of the kind the other theorems speak
    about. *)
Theorem C17_add_member order e ops g who can signer content s g' d : some_order order -> history order ops g -> sound ops ->
  add_member order e g who can signer content s = GOk (g', d) ->
  history order (MD d :: ops) g' /\ d_sig d = s /\ d_issuer d = signer /\ d_delegate d = who /\ d_can d = can /\
  match d_proof d with Some p => holds g p | None => signer = gr_id g end /\ (forall r, r ∈ d_after d <-> exists x, gr_rheads g !! x = Some r).
Proof. intros O H S. exact (add_member_history order O e ops g who can signer content s g' d H S). Qed.
Print Assumptions C17_add_member.

(** The full claim fails when the caller belongs to a group inside a group inside the group: the
    access through them is overestimated, and someone whose every path has at most read access adds
    an admin. *)
Theorem C17_nested_groups_refuted : exists order ops g e signer g' d,
  some_order order /\ sane e /\ history order ops g /\ sound ops /\ e !! gr_id g = Some (gr_members g) /\
  (forall a, grants e (gr_id g) signer a -> rank a <= rank Read) /\
  add_member order e g 66 Admin signer 0 40 = GOk (g', d) /\ holds g' d /\ d_delegate d = 66 /\ d_can d = Admin.
Proof. exact escalation_lemma. Qed.
Print Assumptions C17_nested_groups_refuted.

(** Non-vacuity: a history with five delegations and one revocation, at two replicas that iterate
    differently. *)
Example C17_example : history asc (reverse x_ops ++ [MD x_alice]) (x_group asc) /\ sound (reverse x_ops ++ [MD x_alice]) /\ holds (x_group asc) x_eve /\
  in_chain x_eve x_alice /\ d_can x_eve = Read /\ d_can x_alice = Admin /\
  match add_member asc ∅ (x_group asc) 9 Admin 3 0 50 with GOk _ => true | GErr _ => false end = true /\
  match add_member asc ∅ (x_group asc) 9 Edit 4 0 50 with GErr EAccessEscalation => true | _ => false end = true /\
  match receive_delegation asc ∅ (x_group asc) (Dlg 50 4 9 Edit (Some x_dan) [] 0) with GErr EEscalation => true | _ => false end = true.
Proof.
  split; [apply x_history; auto|]. split; [exact x_sound|]. split; [exists [x_eve]; split; [vm_compute; reflexivity|left]|].
  split; [apply in_chain_lineage; in_list|]. vm_compute. auto 10.
Qed.

(** ** C18.  A revocation is accepted only if it is signed by the group's own key, or names as its
    authority the revoked delegation, one it rests on, or one whose delegate is a group in which the
    signer has at least the access that is taken away; the authority's chain must hold. *)
Theorem C18_accepted order e g r g' : some_order order -> sane e -> receive_revocation order e g r = GOk g' ->
  d_subject (r_revoke r) = gr_id g /\
  match r_proof r with
  | None => r_issuer r = gr_id g
  | Some p => (dlg_eqb (r_revoke r) p = true \/ (exists q, q ∈ lineage (r_revoke r) /\ dlg_eqb q p = true) \/ r_issuer r = d_delegate p \/ belongs e (d_delegate p) (r_issuer r)) /\
              forall a q, in_chain p a -> rests_on a q -> rank (d_can p) <= rank (d_can q) /\ (d_issuer a = d_delegate q \/ belongs e (d_delegate q) (d_issuer a))
  end.
Proof.
  intros O Sn H. destruct (accepted_revocation _ _ _ _ _ H) as (S & A & _). split; [exact S|]. destruct (r_proof r) as [p|]; [|exact A]. destruct A as [A C]. split.
  - destruct A as [A|[A|A]]; [auto| |].
    + right. left. unfold is_descendant_of in A. apply List.existsb_exists in A as (q & Hq & E). exists q. split; [apply elem_of_list_In, Hq|exact E].
    + right. right. destruct (transitive_belongs _ _ _ _ _ O Sn A); auto.
  - apply (check_chain_spec order e); assumption.
Qed.
Print Assumptions C18_accepted.
(** The group's own key can always revoke. *)
Theorem C18_group_may_revoke order e ops g r : some_order order -> history order ops g -> sound (MR r :: ops) ->
  MD (r_revoke r) ∈ ops -> r_proof r = None -> r_issuer r = gr_id g -> exists g', receive_revocation order e g r = GOk g'.
Proof. exact (group_revokes_lemma order e ops g r). Qed.
Print Assumptions C18_group_may_revoke.
(** [revoke_member] revokes exactly the delegations the member holds, all signed by the caller. *)
Theorem C18_revoke_member order e ops g target retain signer content sigs g' rs ns : some_order order ->
  history order ops g -> gr_members g !! target <> None -> revoke_member order e g target retain signer content sigs = GOk (g', rs, ns) ->
  let ops' := reverse (map MD ns) ++ reverse (map MR rs) ++ ops in
  sound ops' ->
  history order ops' g' /\
  (forall r, r ∈ rs -> r_issuer r = signer /\ d_delegate (r_revoke r) = target /\ holds g (r_revoke r)) /\
  (forall d, holds g d -> d_delegate d = target -> exists r, r ∈ rs /\ r_revoke r = d) /\
  (forall d, d ∈ ns -> d_issuer d = signer).
Proof. intros O. exact (revoke_member_history order O e ops g target retain signer content sigs g' rs ns). Qed.
Print Assumptions C18_revoke_member.

(** The full claim fails both ways.  Anyone can revoke by naming the revoked delegation itself as
    the authority: here a stranger empties the group. *)
Theorem C18_outsider_refuted : exists order ops g r g',
  some_order order /\ history order ops g /\ sound ops /\ (forall p, p ∈ parents (MR r) -> p ∈ ops) /\
  (forall d, MD d ∈ ops -> d_delegate d <> r_issuer r /\ d_issuer d <> r_issuer r) /\
  receive_revocation order ∅ g r = GOk g' /\ gr_members g <> ∅ /\ gr_members g' = ∅.
Proof. exact outsider_lemma. Qed.
Print Assumptions C18_outsider_refuted.
(** And an admin cannot remove a member whom they did not add: [revoke_member] finds no authority,
    and a revocation that names their own admin delegation is rejected by every replica. *)
Theorem C18_admin_refuted : exists order ops g mine theirs,
  some_order order /\ history order ops g /\ sound ops /\ holds g mine /\ d_can mine = Admin /\ holds g theirs /\ d_delegate mine <> d_delegate theirs /\
  (forall retain content sigs, revoke_member order ∅ g (d_delegate theirs) retain (d_delegate mine) content sigs = GErr ENoProof) /\
  (forall s content, receive_revocation order ∅ g (Rev s (d_delegate mine) theirs (Some mine) content) = GErr EInvalidProofChain).
Proof. exact admin_lemma. Qed.
Print Assumptions C18_admin_refuted.
Example C18_example :
  match revoke_member asc ∅ (x_group asc) 4 false 3 0 [50; 51] with GOk (g, rs, _) => (map r_sig rs, shown (gr_members g)) | GErr _ => ([], []) end =
    ([50], [(1, [10]); (3, [12]); (5, [14])]) /\
  match receive_revocation asc ∅ (x_group asc) (Rev 50 4 x_carol (Some x_dan) 0) with GErr EInvalidProofChain => true | _ => false end = true.
Proof. vm_compute. auto. Qed.

(** ** C19.  Revocation.  A delegation that no known revocation hits, nor any it rests on, is in
    force. *)
Theorem C19_untouched_kept order ops g d : some_order order -> history order ops g -> sound ops -> orderable (fun o => o ∈ ops) ->
  MD d ∈ ops -> untouched (fun o => o ∈ ops) d -> holds g d.
Proof. intros O H [U D]. exact (kept_lemma order O ops g H U D d). Qed.
Print Assumptions C19_untouched_kept.
(** A revocation by the group's key, or whose authority no other revocation hits, takes effect; the
    revoked delegation is then not in force. *)
Theorem C19_revoked_gone order ops g r : some_order order -> history order ops g -> sound ops -> orderable (fun o => o ∈ ops) -> revoked_once (fun o => o ∈ ops) ->
  MR r ∈ ops -> match r_proof r with Some p => untouched (fun o => o ∈ ops /\ o <> MR r) p | None => r_issuer r = gr_id g end ->
  gr_active g !! r_sig r = Some r /\ ~ holds g (r_revoke r).
Proof.
  intros O H [U D] Q R Hr A. pose proof (active_lemma order O ops g H U D r Q Hr A) as X. split; [exact X|]. exact (revoked_lemma order O ops g H U D r Q R X).
Qed.
Print Assumptions C19_revoked_gone.
(** Removing a member with the group's key ends every delegation they hold. *)
Theorem C19_group_removes_member order e ops g target retain content sigs g' rs ns : some_order order -> history order ops g ->
  gr_members g !! target <> None -> revoke_member order e g target retain (gr_id g) content sigs = GOk (g', rs, ns) ->
  let ops' := reverse (map MD ns) ++ reverse (map MR rs) ++ ops in
  sound ops' -> orderable (fun o => o ∈ ops') -> revoked_once (fun o => o ∈ ops') ->
  forall d, holds g d -> d_delegate d = target -> ~ holds g' d.
Proof. exact (group_removes_lemma order e ops g target retain content sigs g' rs ns). Qed.
Print Assumptions C19_group_removes_member.
(** What rests on a revoked delegation [p] goes too, if whoever signed [p] is not the group's key
    and holds nothing else of that strength: whatever else they were given had been revoked, to the
    knowledge of whoever made [d]. *)
Theorem C19_dependents_gone_partial order ops g d p r : some_order order -> history order ops g -> sound ops ->
  orderable (fun o => o ∈ ops) -> revoked_once (fun o => o ∈ ops) ->
  MD d ∈ ops -> rests_on d p -> r_revoke r = p -> gr_active g !! r_sig r = Some r -> d_issuer p <> gr_id g ->
  (forall a, MD a ∈ ops -> d_delegate a = d_issuer p -> a <> p -> rank (d_can p) <= rank (d_can a) ->
     exists r', gr_active g !! r_sig r' = Some r' /\ r_revoke r' = a /\ rtc depends_on (MD d) (MR r')) ->
  ~ holds g d.
Proof. intros O H [U D]. exact (dependent_lemma order ops g d p r O H U D). Qed.
Print Assumptions C19_dependents_gone_partial.
(** Without that condition they stay: bob was added and removed by the group's key; carol, whom bob
    had added, remains a member although nothing else makes carol one. *)
Theorem C19_dependents_refuted : exists order ops g r d,
  some_order order /\ history order ops g /\ sound ops /\ orderable (fun o => o ∈ ops) /\ revoked_once (fun o => o ∈ ops) /\
  MD d ∈ ops /\ gr_active g !! r_sig r = Some r /\ rests_on d (r_revoke r) /\
  (forall d', MD d' ∈ ops -> d_delegate d' = d_delegate d -> d' = d) /\
  (forall d', holds g d' -> d_delegate d' <> d_issuer d) /\ holds g d.
Proof. exact survivor_lemma. Qed.
Print Assumptions C19_dependents_refuted.
Example C19_example : let ops := reverse x_ops ++ [MD x_alice] in
  orderable (fun o => o ∈ ops) /\ revoked_once (fun o => o ∈ ops) /\ MR x_no_bob ∈ ops /\ untouched (fun o => o ∈ ops /\ o <> MR x_no_bob) x_bob /\
  untouched (fun o => o ∈ ops) x_eve /\ shown (gr_members (x_group asc)) = [(1, [10]); (3, [12]); (5, [14]); (4, [13])].
Proof.
  split; [exact x_orderable|]. split; [exact x_once|]. split; [in_list|]. split; [|split; [|exact (proj1 x_shown)]].
  - intros t r _ [Hr N]. cbn in Hr. repeat (apply elem_of_cons in Hr as [Hr|Hr]; [try discriminate; congruence|]). inversion Hr.
  - intros t r Ht Hr. cbn in Hr. repeat (apply elem_of_cons in Hr as [Hr|Hr]; [try discriminate|]); [|inversion Hr]. injection Hr as ->.
    cbn in Ht. repeat (apply elem_of_cons in Ht as [->|Ht]; [cbn; discriminate|]). inversion Ht.
Qed.

(** ** C20.  Replicas that accepted the same operations, in whatever order, have the same members
    with the same delegations, and the same revocations in force. *)
Theorem C20_converge_partial order order' ops ops' g g' : some_order order -> some_order order' ->
  history order ops g -> history order' ops' g' -> (forall o, o ∈ ops <-> o ∈ ops') ->
  sound ops -> revoked_once (fun o => o ∈ ops) -> gr_members g = gr_members g' /\ gr_active g = gr_active g'.
Proof. intros O O' H H' S [U D]. exact (converge_lemma order order' ops ops' g g' O O' H H' S U D). Qed.
Print Assumptions C20_converge_partial.
(** Both conditions are needed.  When one delegation has two revocations, the members depend on the
    iteration order of a hash map. *)
Theorem C20_revoked_twice_refuted : exists order order' ops g g' i,
  some_order order /\ some_order order' /\ history order ops g /\ history order' ops g' /\ sound ops /\ orderable (fun o => o ∈ ops) /\
  is_Some (gr_members g !! i) /\ gr_members g' !! i = None.
Proof. exact twice_lemma. Qed.
Print Assumptions C20_revoked_twice_refuted.
(** When two members of a team make the same grant, the members depend on the order of arrival. *)
Theorem C20_same_grant_refuted : exists order ops ops' g g' i,
  some_order order /\ history order ops g /\ history order ops' g' /\ (forall o, o ∈ ops <-> o ∈ ops') /\ genuine (fun o => o ∈ ops) /\
  orderable (fun o => o ∈ ops) /\ revoked_once (fun o => o ∈ ops) /\ is_Some (gr_members g !! i) /\ gr_members g' !! i = None.
Proof. exact same_grant_lemma. Qed.
Print Assumptions C20_same_grant_refuted.
Example C20_example : history asc (reverse x_ops ++ [MD x_alice]) (x_group asc) /\ history desc (reverse x_ops ++ [MD x_alice]) (x_group desc) /\
  sound (reverse x_ops ++ [MD x_alice]) /\ revoked_once (fun o => o ∈ reverse x_ops ++ [MD x_alice]).
Proof. split; [apply x_history; auto|]. split; [apply x_history; auto|]. split; [exact x_sound|exact x_once]. Qed.

(** ** C21.  The order in which a group is rebuilt: total, nothing twice, nothing unknown, causes
    first; complete when the operations can be ordered at all; revocations before whatever rests on
    what they revoke. *)
Theorem C21_replay_order order g : some_order order -> filed g -> genuine (known g) ->
  exists ops, replay_order order g ops /\ NoDup ops /\ (forall o, o ∈ ops -> known g o) /\
    (forall i j o p, ops !! i = Some o -> ops !! j = Some p -> p ∈ parents o -> j < i) /\
    (orderable (known g) -> forall o, known g o -> o ∈ ops) /\
    (revoked_once (known g) -> forall i j d p r, ops !! i = Some (MD d) -> ops !! j = Some (MR r) -> d_proof d = Some p ->
       d_sig (r_revoke r) = d_sig p -> j < i).
Proof. intros O. exact (replay_order_spec order O g). Qed.
Print Assumptions C21_replay_order.
(** The operations can be ordered if every revocation is made by the group's key or on the authority
    of the revoked delegation or one it rests on. *)
Theorem C21_orderable ops order g : history order ops g -> sound ops -> revoked_from_above (fun o => o ∈ ops) -> orderable (fun o => o ∈ ops).
Proof. intros H [U _]. exact (revoked_from_above_orderable _ (history_closed order ops g H) U). Qed.
Print Assumptions C21_orderable.
(** The operations of a history are those below its heads, so nothing accepted is forgotten. *)
Theorem C21_heads_cover order ops g : some_order order -> history order ops g -> sound ops -> filed g /\ forall o, known g o <-> o ∈ ops.
Proof. intros O H [U D]. pose proof (hist_cons order O ops g H U D) as C. split; [exact (cs_filed _ _ _ C)|exact (cs_known _ _ _ C)]. Qed.
Print Assumptions C21_heads_cover.
(** Otherwise not: alice adds a team, and a member of the team revokes alice on the team's authority.
    The revocation must come both before and after the team's delegation; the order comes out empty
    and the group loses all its members. *)
Theorem C21_cycle_refuted : exists order ops g r,
  some_order order /\ history order ops g /\ sound ops /\ revoked_once (fun o => o ∈ ops) /\ MR r ∈ ops /\
  ~ orderable (fun o => o ∈ ops) /\ replay_order order g [] /\ gr_members g = ∅ /\ gr_active g = ∅.
Proof. exact cycle_lemma. Qed.
Print Assumptions C21_cycle_refuted.
Example C21_example : match reverse_topsort asc (gr_dheads (x_group asc)) (gr_rheads (x_group asc)) with Some (l, _) => reverse l | None => [] end = [10; 12; 11; 20; 13; 14].
Proof. vm_compute. reflexivity. Qed.

(** ** C22.  The transitive members of a group are exactly the agents reachable through groups,
    cycles included. *)
Theorem C22_members order e self mems : some_order order -> sane e -> e !! self = Some mems ->
  exists caps, transitive_members order e self mems = Some caps /\ forall i, i <> self -> is_Some (caps !! i) <-> belongs e self i.
Proof. exact (transitive_members_spec order e self mems). Qed.
Print Assumptions C22_members.
(** In a group without groups in it, everybody has the best access delegated to them. *)
Theorem C22_flat_access_partial order e self mems : some_order order -> sane e -> e !! self = Some mems -> (forall i, is_Some (mems !! i) -> e !! i = None) ->
  exists caps, transitive_members order e self mems = Some caps /\ forall i, caps !! i = d_can <$> get_capability mems i.
Proof. exact (flat_lemma order e self mems). Qed.
Print Assumptions C22_flat_access_partial.
(** In general their access is not that of the best path: it can exceed every path, *)
Theorem C22_access_refuted : exists order e g i caps,
  some_order order /\ sane e /\ belongs e g i /\ (forall a, grants e g i a -> rank a <= rank Read) /\
  (exists mems, e !! g = Some mems /\ transitive_members order e g mems = Some caps) /\ caps !! i = Some Admin.
Proof. exact nested_lemma. Qed.
Print Assumptions C22_access_refuted.
(** and it depends on the order of iteration. *)
Theorem C22_order_refuted : exists order order' e g mems i caps caps',
  some_order order /\ some_order order' /\ e !! g = Some mems /\ grants e g i Admin /\
  transitive_members order e g mems = Some caps /\ transitive_members order' e g mems = Some caps' /\ caps !! i = Some Admin /\ caps' !! i = Some Read.
Proof. exact unstable_lemma. Qed.
Print Assumptions C22_order_refuted.

(** ** C23.  The individuals behind an agent are exactly the reachable agents that are no groups. *)
Theorem C23_individuals order e start : some_order order -> sane e ->
  exists r, individual_ids order e start = Some r /\ forall i, i ∈ r <-> rtc (direct e) start i /\ e !! i = None.
Proof. intros O S. exact (individual_ids_spec order O e S start). Qed.
Print Assumptions C23_individuals.
Theorem C23_group_individuals order e self mems : some_order order -> sane e -> e !! self = Some mems ->
  exists r, group_individual_ids order e mems = Some r /\ forall i, i ∈ r <-> belongs e self i /\ e !! i = None.
Proof. exact (group_individual_ids_spec order e self mems). Qed.
Print Assumptions C23_group_individuals.
(** The individuals whose prekeys are picked when a document key is made. *)
Theorem C23_prekey_individuals order e self public mems : some_order order -> sane e -> e !! self = Some mems -> e !! public = None ->
  exists r, prekey_individuals order e self public mems = Some r /\ forall i, i ∈ r <-> belongs e self i /\ e !! i = None.
Proof. exact (prekey_individuals_spec order e self public mems). Qed.
Print Assumptions C23_prekey_individuals.
Example C22_example : sane n_env /\ n_env !! 100 = Some (one 200 Admin 30 100) /\
  map fst (map_to_list (default ∅ (transitive_members asc n_env 100 (one 200 Admin 30 100)))) ≡ₚ [200; 300; 400; 5] /\
  elements (default ∅ (individual_ids asc n_env 100)) = [5].
Proof. split; [exact n_sane|]. split; [reflexivity|]. split; [apply (bool_decide_unpack _)|]; vm_compute; reflexivity || exact I. Qed.
