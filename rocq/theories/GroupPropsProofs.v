(** Proofs of the group properties and the concrete groups used as examples. *)
From Coq Require Import Arith Lia.
From stdpp Require Import base list gmap relations sorting.
From Verif Require Import AccessModel GroupModel CgkaSpec GroupSpec GroupProofs GroupReplay GroupMembers GroupHistory GroupTransitive.

(** ** Chains *)
Lemma in_chain_lineage d q : in_chain d q <-> q ∈ d :: lineage d.
Proof.
  split.
  - induction 1 as [d|d p q R _ IH]; [left|]. unfold rests_on in R. rewrite (lineage_proof _ _ R). right. exact IH.
  - remember (d_size d) as n eqn:E. assert (L : d_size d <= n) by lia. clear E. revert d L. induction n as [|n IH]; intros d L H.
    { destruct d; cbn in L; lia. }
    apply elem_of_cons in H as [->|H]; [apply rtc_refl|]. destruct (d_proof d) as [p|] eqn:E; [|rewrite (lineage_none _ E) in H; inversion H].
    rewrite (lineage_proof _ _ E) in H. eapply rtc_l; [exact E|]. apply IH; [|exact H].
    destruct d as [s i t c pr af co]. cbn in E. subst pr. cbn in L. lia.
Qed.
Lemma root_of d : exists q, in_chain d q /\ d_proof q = None /\ d_issuer q = d_subject d.
Proof.
  remember (d_size d) as n eqn:E. assert (L : d_size d <= n) by lia. clear E. revert d L. induction n as [|n IH]; intros d L.
  { destruct d; cbn in L; lia. }
  destruct (d_proof d) as [p|] eqn:E.
  - destruct (IH p) as (q & C & N & I). { destruct d as [s i t c pr af co]. cbn in E. subst pr. cbn in L. lia. }
    exists q. split; [eapply rtc_l; [exact E|exact C]|]. split; [exact N|]. rewrite I. destruct d as [s i t c pr af co]. cbn in E. subst pr. reflexivity.
  - exists d. split; [apply rtc_refl|]. split; [exact E|]. destruct d as [s i t c pr af co]. cbn in E. subst pr. reflexivity.
Qed.
Lemma ale_rank a b : ale a b = true <-> rank a <= rank b.
Proof. unfold ale. apply Nat.leb_le. Qed.
Lemma transitive_belongs order e g i a : some_order order -> sane e -> is_transitive_member_of order e g i a = true -> i = g \/ belongs e g i.
Proof.
  intros O Sn H. unfold is_transitive_member_of in H. destruct (e !! g) as [mems|] eqn:E; [|discriminate].
  destruct (transitive_members_spec order e g mems O Sn E) as (caps & Q & K). rewrite Q in H. destruct (caps !! i) eqn:C; [|discriminate].
  destruct (decide (i = g)) as [->|N]; [auto|]. right. apply K; [exact N|eauto].
Qed.
Lemma check_chain_spec order e can d : some_order order -> sane e -> check_chain order e can d (lineage d) = None ->
  forall a p, in_chain d a -> rests_on a p -> rank can <= rank (d_can p) /\ (d_issuer a = d_delegate p \/ belongs e (d_delegate p) (d_issuer a)).
Proof.
  intros O Sn H a p C R. revert H. induction C as [d|d q a S _ IH]; intros H.
  - unfold rests_on in R. rewrite (lineage_proof _ _ R) in H. cbn in H. destruct (ale can (d_can p)) eqn:L; cbn in H; [|discriminate].
    split; [apply ale_rank, L|]. destruct (Nat.eqb_spec (d_issuer d) (d_delegate p)) as [I|I]; [auto|]. cbn in H.
    destruct (is_transitive_member_of order e (d_delegate p) (d_issuer d) can) eqn:T; [|discriminate].
    destruct (transitive_belongs _ _ _ _ _ O Sn T); auto.
  - unfold rests_on in S. rewrite (lineage_proof _ _ S) in H. cbn in H. destruct (ale can (d_can q)); cbn in H; [|discriminate].
    destruct (_ && _); [discriminate|]. apply IH; auto.
Qed.
Lemma accepted_chain_lemma order e g d g' : some_order order -> sane e -> receive_delegation order e g d = GOk g' ->
  (exists root, in_chain d root /\ d_proof root = None /\ d_issuer root = gr_id g) /\
  (forall a p, in_chain d a -> rests_on a p ->
     rank (d_can d) <= rank (d_can p) /\ (d_issuer a = d_delegate p \/ belongs e (d_delegate p) (d_issuer a))).
Proof.
  intros O Sn H. destruct (accepted_delegation _ _ _ _ _ H) as (Sd & _ & C & _). split.
  - destruct (root_of d) as (q & Q1 & Q2 & Q3). exists q. rewrite <- Sd. auto.
  - apply (check_chain_spec order e); assumption.
Qed.
Lemma chain_monotone order ops g : history order ops g -> forall d a p, MD d ∈ ops -> in_chain d a -> rests_on a p -> rank (d_can a) <= rank (d_can p).
Proof.
  intros H d a p Hd C R. assert (Ha : MD a ∈ ops).
  { apply (rtc_in (fun o => o ∈ ops) (MD d) (MD a)); [exact (history_closed _ _ _ H)|exact Hd|]. clear -C. induction C as [|d q a S _ IH]; [apply rtc_refl|].
    eapply rtc_l; [|exact IH]. apply proof_parent, S. }
  clear d Hd C. induction H as [id ps content g N ND E|d g E1 E2 E|e ops g d g' H IH Hp E|e ops g r g' H IH Hp E].
  - apply elem_of_list_fmap in Ha as (z & [= ->] & _). discriminate.
  - apply elem_of_list_singleton in Ha. injection Ha as ->. unfold rests_on in R. congruence.
  - apply elem_of_cons in Ha as [Q|Ha]; [injection Q as ->|auto]. destruct (accepted_delegation _ _ _ _ _ E) as (_ & _ & C & _).
    unfold rests_on in R. rewrite (lineage_proof _ _ R) in C. cbn in C. destruct (ale (d_can d) (d_can p)) eqn:L; [|discriminate]. apply ale_rank, L.
  - apply elem_of_cons in Ha as [Q|Ha]; [discriminate|auto].
Qed.
Lemma chain_best order ops g : history order ops g -> forall d q, MD d ∈ ops -> in_chain d q -> rank (d_can d) <= rank (d_can q).
Proof.
  intros H d q Hd C. apply rtc_ind_r with (P := fun q => rank (d_can d) <= rank (d_can q)) in C; [exact C|lia|].
  intros a p Ca R L. pose proof (chain_monotone _ _ _ H d a p Hd Ca R). lia.
Qed.

(** ** Members of a group come from its operations *)
Lemma holds_known order g : some_order order -> filed g -> genuine (known g) -> rebuild order g = Some g -> forall d, holds g d -> known g (MD d).
Proof.
  intros O F U R d H. destruct (rebuild_play order O g F U) as (ops & s & Hr & _ & I & E). rewrite R in E. injection E as E.
  destruct (replay_split order O g ops F U Hr) as (K & _). apply K. apply (pl_has _ _ _ I). destruct H as (l & L & Hd). exists l. split; [|exact Hd].
  rewrite E in L. exact L.
Qed.
Section one.
Context (order : gset nat -> list nat) (Hord : some_order order) (ops : list mop) (g : group).
Context (HH : history order ops g) (HU : genuine (fun o => o ∈ ops)) (HD : distinct_grants (fun o => o ∈ ops)).

Lemma hist_cons : consistent order ops g.
Proof. apply history_consistent; assumption. Qed.
Lemma known_genuine : genuine (known g).
Proof. intros a b A B. apply HU; apply (cs_known _ _ _ hist_cons); assumption. Qed.
Lemma holds_in d : holds g d -> MD d ∈ ops.
Proof.
  intros H. apply (cs_known _ _ _ hist_cons). apply (holds_known order); [exact Hord|apply (cs_filed _ _ _ hist_cons)|apply known_genuine|apply (cs_built _ _ _ hist_cons)|exact H].
Qed.
Lemma members_wf : wf_members (gr_members g).
Proof.
  pose proof (cs_filed _ _ _ hist_cons) as F. pose proof (cs_built _ _ _ hist_cons) as R.
  destruct (rebuild_play order Hord g F known_genuine) as (l & s & Hr & _ & I & E). rewrite R in E. injection E as E. rewrite E. apply (pl_wf _ _ _ I).
Qed.
(** Everything about the final state, seen through the replay that built it. *)
Lemma replayed : exists l s, replay_order order g l /\ NoDup l /\ (forall o, o ∈ l -> o ∈ ops) /\
  (orderable (fun o => o ∈ ops) -> causal l) /\ (revoked_once (fun o => o ∈ ops) -> late l) /\
  (orderable (fun o => o ∈ ops) -> forall o, o ∈ ops -> o ∈ l) /\
  play_ops order (gr_id g) no_play l = Some s /\ played (known g) l s /\ gr_members g = p_members s /\ gr_active g = p_active s.
Proof.
  pose proof (cs_filed _ _ _ hist_cons) as F. pose proof (cs_built _ _ _ hist_cons) as R. pose proof (cs_known _ _ _ hist_cons) as K.
  destruct (rebuild_play order Hord g F known_genuine) as (l & s & Hr & P & I & E). destruct (replay_split order Hord g l F known_genuine Hr) as (A & B & C & D & G).
  assert (OO : orderable (fun o => o ∈ ops) -> orderable (known g)).
  { intros (f & f1 & f2). exists f. split; [intros o p Ko; apply f1, K, Ko|intros d p r Kd Kr; apply f2; apply K; assumption]. }
  assert (RO : revoked_once (fun o => o ∈ ops) -> revoked_once (known g)).
  { intros Q r r' Kr Kr'. apply Q; apply K; assumption. }
  exists l, s. split; [exact Hr|]. split; [exact B|]. split; [intros o Ho; apply K, A, Ho|]. split; [auto|]. split; [auto|]. split; [intros Q o Ho; apply G; [auto|apply K, Ho]|].
  split; [exact P|]. split; [exact I|]. rewrite R in E. injection E as E. rewrite E. auto.
Qed.
Lemma kept_lemma d : orderable (fun o => o ∈ ops) -> MD d ∈ ops -> untouched (fun o => o ∈ ops) d -> holds g d.
Proof.
  intros Q Hd U. destruct replayed as (l & s & _ & ND & L1 & L2 & _ & L4 & P & I & M & _).
  assert (Kn : forall o, o ∈ l -> known g o) by (intros o Ho; apply (cs_known _ _ _ hist_cons), L1, Ho).
  pose proof (played_keep order Hord (gr_id g) (known g) (known_closed g) known_genuine l s Kn (L2 Q) P d (L4 Q _ Hd) (cs_subject _ _ _ hist_cons d Hd)) as X.
  destruct (pl_in _ _ _ I (d_sig d) d) as (_ & _ & H).
  { apply X. intros t r Ht Hr. apply U; auto. }
  destruct H as (m & E & H). exists m. rewrite M. auto.
Qed.
Lemma active_lemma r : orderable (fun o => o ∈ ops) -> MR r ∈ ops ->
  match r_proof r with
  | Some p => untouched (fun o => o ∈ ops /\ o <> MR r) p
  | None => r_issuer r = gr_id g
  end -> gr_active g !! r_sig r = Some r.
Proof.
  intros Q Hr U. destruct replayed as (l & s & _ & ND & L1 & L2 & _ & L4 & P & I & _ & M).
  assert (Kn : forall o, o ∈ l -> known g o) by (intros o Ho; apply (cs_known _ _ _ hist_cons), L1, Ho).
  rewrite M. apply (played_active order Hord (gr_id g) (known g) (known_closed g) known_genuine l s Kn ND (L2 Q) P r (L4 Q _ Hr)).
  destruct (r_proof r) as [p|] eqn:E; [|exact U]. split.
  - apply (cs_subject _ _ _ hist_cons). apply (history_closed _ _ _ HH (MR r) (MD p) Hr). cbn. rewrite E. right. left.
  - intros t r' Ht [Hr' Ne]. apply U; auto.
Qed.
Lemma revoked_lemma r : orderable (fun o => o ∈ ops) -> revoked_once (fun o => o ∈ ops) ->
  gr_active g !! r_sig r = Some r -> ~ holds g (r_revoke r).
Proof.
  intros Q O A. destruct replayed as (l & s & _ & ND & L1 & L2 & L3 & L4 & P & I & M & M').
  assert (Kn : forall o, o ∈ l -> known g o) by (intros o Ho; apply (cs_known _ _ _ hist_cons), L1, Ho).
  destruct (played_strict order Hord (gr_id g) (known g) (known_closed g) known_genuine l s Kn ND (L2 Q) (L3 O) P) as [X Y].
  rewrite M' in A. intros (m & E & H). rewrite M in E. assert (Z : has (p_members s) (r_revoke r)) by (exists m; auto). apply X in Z. rewrite (Y _ _ A) in Z. discriminate.
Qed.
End one.

(** ** Replicas agree *)
Lemma converge_lemma order order' ops ops' g g' : some_order order -> some_order order' ->
  history order ops g -> history order' ops' g' -> (forall o, o ∈ ops <-> o ∈ ops') ->
  genuine (fun o => o ∈ ops) -> distinct_grants (fun o => o ∈ ops) -> revoked_once (fun o => o ∈ ops) ->
  gr_members g = gr_members g' /\ gr_active g = gr_active g'.
Proof.
  intros O O' H H' S U D R.
  assert (U' : genuine (fun o => o ∈ ops')) by (intros a b A B; apply U; apply S; assumption).
  assert (D' : distinct_grants (fun o => o ∈ ops')) by (intros a b A B; apply D; apply S; assumption).
  pose proof (hist_cons order O ops g H U D) as C. pose proof (hist_cons order' O' ops' g' H' U' D') as C'.
  assert (I : gr_id g = gr_id g').
  { pose proof (cs_heads _ _ _ C) as N. apply map_choose in N as (x & d & N). pose proof (proj1 (cs_filed _ _ _ C) _ _ N) as <-.
    assert (Hd : MD d ∈ ops) by (apply (cs_known _ _ _ C); exists (MD d); split; [exact N|apply rtc_refl]).
    rewrite <- (cs_subject _ _ _ C d Hd). apply (cs_subject _ _ _ C' d), S, Hd. }
  assert (K : forall o, known g o <-> known g' o) by (intros o; rewrite (cs_known _ _ _ C), (cs_known _ _ _ C'); apply S).
  assert (RO : revoked_once (known g)) by (intros r r' A B; apply R; apply (cs_known _ _ _ C); assumption).
  assert (GK : genuine (known g)) by (intros a b A B; apply U; apply (cs_known _ _ _ C); assumption).
  assert (GK' : genuine (known g')) by (intros a b A B; apply GK; apply K; assumption).
  pose proof (cs_built _ _ _ C) as B. pose proof (cs_built _ _ _ C') as B'.
  destruct (explore_table order O g (cs_filed _ _ _ C) GK) as (all & rd & X & T). destruct (explore_table order' O' g' (cs_filed _ _ _ C') GK') as (all' & rd' & X' & T').
  destruct (table_unique g g' all rd all' rd' RO K T T') as [<- <-].
  destruct (rebuild_play order O g (cs_filed _ _ _ C) GK) as (l & s & (q & al & Rt & El) & P & I1 & E).
  destruct (rebuild_play order' O' g' (cs_filed _ _ _ C') GK') as (l' & s' & (q' & al' & Rt' & El') & P' & I1' & E').
  assert (l = l') as <-.
  { unfold reverse_topsort in Rt, Rt'. unfold heads_of, sizes in X, X'. rewrite X in Rt. rewrite X' in Rt'. rewrite El, El'.
    destruct (drain _ _ _ _ _); [|discriminate]. injection Rt as <- <-. injection Rt' as <- <-. reflexivity. }
  destruct (replay_split order O g l (cs_filed _ _ _ C) GK) as (A1 & _ & _ & A3 & _). { exists q, al. auto. }
  rewrite <- I in P'. rewrite (play_ops_order order order' (gr_id g) (known g) l O O' (known_closed g) GK A1 (A3 RO)) in P. rewrite P in P'. injection P' as <-.
  rewrite B in E. rewrite B' in E'. injection E as E. injection E' as E'. rewrite E, E'. auto.
Qed.

(** ** Local changes are part of the history *)
Section local.
Context (order : gset nat -> list nat) (Hord : some_order order) (e : env).
Definition sound (ops : list mop) : Prop := genuine (fun o => o ∈ ops) /\ distinct_grants (fun o => o ∈ ops).
Lemma sound_sub ops ops' : (forall o, o ∈ ops -> o ∈ ops') -> sound ops' -> sound ops.
Proof. intros S [U D]. split; [intros a b A B; apply U; apply S; assumption|intros a b A B; apply D; apply S; assumption]. Qed.
Lemma member_in ops g i l d : history order ops g -> sound ops -> gr_members g !! i = Some l -> d ∈ l -> MD d ∈ ops.
Proof.
  intros H [U D] E Hd. apply (holds_in order Hord ops g H U D). apply (wf_has _ _ _ _ (members_wf order Hord ops g H U D) E Hd).
Qed.
Lemma capability_in ops g i d : history order ops g -> sound ops -> get_capability (gr_members g) i = Some d -> MD d ∈ ops.
Proof.
  intros H S E. unfold get_capability in E. destruct (gr_members g !! i) as [l|] eqn:L; [|discriminate]. eapply member_in; eauto. apply best_dlg_in, E.
Qed.
Lemma find_proof_in ops g signer can ids best d : history order ops g -> sound ops ->
  find_proof order e (gr_members g) signer can ids best = GOk d -> MD d ∈ ops.
Proof.
  intros H S. revert best. induction ids as [|i ids IH]; intros best; cbn; [destruct best; discriminate|].
  destruct (get_capability (gr_members g) i) as [c|] eqn:C; [|apply IH]. destruct (e !! d_delegate c) as [sub|]; [|apply IH].
  destruct (transitive_members order e (d_delegate c) sub) as [caps|]; [|discriminate]. destruct (caps !! signer) as [a|]; [|apply IH].
  destruct (ale can a); [|apply IH]. intros [= <-]. eapply capability_in; eauto.
Qed.
Lemma find_revoker_in ops g signer can ids d : history order ops g -> sound ops ->
  find_revoker order e (gr_members g) signer can ids = GOk (Some d) -> MD d ∈ ops.
Proof.
  intros H S. induction ids as [|i ids IH]; cbn; [discriminate|].
  destruct (get_capability (gr_members g) i) as [c|] eqn:C; [|apply IH]. destruct (e !! d_delegate c) as [sub|]; [|apply IH].
  destruct (transitive_members order e (d_delegate c) sub) as [caps|]; [|discriminate]. destruct (caps !! signer) as [a|]; [|apply IH].
  destruct (ale can a); [|apply IH]. intros [= <-]. eapply capability_in; eauto.
Qed.
Lemma rheads_in ops g x r : history order ops g -> sound ops -> gr_rheads g !! x = Some r -> MR r ∈ ops.
Proof.
  intros H [U D] E. pose proof (hist_cons order Hord ops g H U D) as C. apply (cs_known _ _ _ C). exists (MR r). split; [|apply rtc_refl].
  cbn. rewrite <- (proj2 (cs_filed _ _ _ C) _ _ E) in E. exact E.
Qed.
Lemma add_member_history ops g who can signer content s g' d : history order ops g -> sound ops ->
  add_member order e g who can signer content s = GOk (g', d) ->
  history order (MD d :: ops) g' /\ d_sig d = s /\ d_issuer d = signer /\ d_delegate d = who /\ d_can d = can /\
    match d_proof d with Some p => holds g p | None => signer = gr_id g end /\ (forall r, r ∈ d_after d <-> exists x, gr_rheads g !! x = Some r).
Proof.
  intros H S E. unfold add_member in E. cbv zeta in E.
  match type of E with match ?X with _ => _ end = _ => destruct X as [p|] eqn:Ep end; [|discriminate].
  destruct (receive_delegation _ _ _ _) as [g1|] eqn:R; [|discriminate]. injection E as -> <-. cbn [d_sig d_issuer d_delegate d_can d_proof d_after].
  assert (Hp : match p with Some p => holds g p | None => signer = gr_id g end).
  { destruct (Nat.eqb_spec (gr_id g) signer) as [Q|_]; [injection Ep as <-; auto|].
    assert (W : forall i c, get_capability (gr_members g) i = Some c -> holds g c).
    { intros i c Hc. unfold get_capability in Hc. destruct (gr_members g !! i) as [l|] eqn:L; [|discriminate]. apply best_dlg_in in Hc.
      destruct S as [U D]. apply (wf_has _ _ _ _ (members_wf order Hord ops g H U D) L Hc). }
    destruct (get_capability (gr_members g) signer) as [c|] eqn:C.
    - destruct (alt _ _); [discriminate|]. injection Ep as <-. eapply W; eauto.
    - destruct (find_proof _ _ _ _ _ _ _) as [c|] eqn:F; [|discriminate]. injection Ep as <-. clear -F W. revert F.
      generalize (None : option access). induction (order (dom (gr_members g))) as [|i ids IH]; intros best; cbn; [destruct best; discriminate|].
      destruct (get_capability (gr_members g) i) as [c'|] eqn:C; [|apply IH]. destruct (e !! d_delegate c') as [sub|]; [|apply IH].
      destruct (transitive_members order e (d_delegate c') sub) as [caps|]; [|discriminate]. destruct (caps !! signer) as [a|]; [|apply IH].
      destruct (ale can a); [|apply IH]. intros [= <-]. eapply W; eauto. }
  assert (Ha : forall r, r ∈ omap (gr_rheads g !!.) (order (dom (gr_rheads g))) <-> exists x, gr_rheads g !! x = Some r).
  { intros r. rewrite elem_of_list_omap. split; [intros (x & _ & Q); eauto|]. intros (x & Q). exists x. split; [|exact Q]. apply (order_dom order Hord). eauto. }
  split; [|split; [reflexivity|split; [reflexivity|split; [reflexivity|split; [reflexivity|split; [exact Hp|exact Ha]]]]]].
  eapply h_delegation; [exact H| |exact R]. intros q Hq. cbn in Hq. apply elem_of_app in Hq as [Hq|Hq].
  - destruct p as [p|]; cbn in Hq; [|inversion Hq]. apply elem_of_list_singleton in Hq as ->. destruct S as [U D]. apply (holds_in order Hord ops g H U D), Hp.
  - apply elem_of_list_fmap in Hq as (r & -> & Hr). apply Ha in Hr as (x & Hr). eapply rheads_in; eauto.
Qed.
Lemma revoke_one_history ops g signer d proof content sigs g' r sigs' : history order ops g -> MD d ∈ ops ->
  revoke_one order e g signer d proof content sigs = GOk (g', r, sigs') -> match proof with Some p => MD p ∈ ops | None => True end ->
  history order (MR r :: ops) g' /\ r_revoke r = d /\ r_issuer r = signer /\ r_proof r = proof.
Proof.
  intros H Hd E Hp. unfold revoke_one in E. destruct sigs as [|s sigs]; [discriminate|]. cbv zeta in E.
  destruct (receive_revocation _ _ _ _) as [g1|] eqn:R; [|discriminate]. injection E as -> <- <-. split; [|auto].
  eapply h_revocation; [exact H| |exact R]. intros q Hq. cbn in Hq. apply elem_of_cons in Hq as [->|Hq]; [exact Hd|].
  destruct proof as [p|]; cbn in Hq; [|inversion Hq]. apply elem_of_list_singleton in Hq as ->. exact Hp.
Qed.
(** The history after the revocations [rs] of [d] by [signer]. *)
Definition after_revs (rs : list rev) (ops : list mop) : list mop := reverse (map MR rs) ++ ops.
Lemma after_revs_nil ops : after_revs [] ops = ops.
Proof. reflexivity. Qed.
Lemma after_revs_cons r rs ops : after_revs (r :: rs) ops = after_revs rs (MR r :: ops).
Proof. unfold after_revs. change (map MR (r :: rs)) with (MR r :: map MR rs). rewrite reverse_cons, <- app_assoc. reflexivity. Qed.
Lemma after_revs_app rs rs' ops : after_revs (rs ++ rs') ops = after_revs rs' (after_revs rs ops).
Proof. revert ops. induction rs as [|r rs IH]; intros ops; [reflexivity|]. change ((r :: rs) ++ rs') with (r :: (rs ++ rs')). rewrite !after_revs_cons. apply IH. Qed.
Lemma after_revs_in rs ops o : o ∈ after_revs rs ops <-> (exists r, r ∈ rs /\ o = MR r) \/ o ∈ ops.
Proof.
  unfold after_revs. rewrite elem_of_app, elem_of_reverse, elem_of_list_fmap. split; (intros [(r & A & B)|A]; [left|right; exact A]); eauto.
Qed.
Lemma revoke_as_admin_history signer target d content mine : forall ops g sigs g' rs sigs',
  history order ops g -> MD d ∈ ops -> (forall m, m ∈ mine -> MD m ∈ ops) ->
  revoke_as_admin order e g signer target d mine content sigs = GOk (g', rs, sigs') ->
  history order (after_revs rs ops) g' /\ forall r, r ∈ rs -> r_revoke r = d /\ r_issuer r = signer.
Proof.
  induction mine as [|m mine IH]; intros ops g sigs g' rs sigs' H Hd Hm E; cbn in E.
  { injection E as <- <- <-. split; [exact H|]. intros r Hr. inversion Hr. }
  destruct (negb _ || negb _).
  - eapply (IH ops g sigs); eauto. intros m' Hm'. apply Hm. right. exact Hm'.
  - destruct (revoke_one _ _ _ _ _ _ _ _) as [[[g1 r1] sg1]|] eqn:R; [|discriminate].
    destruct (revoke_one_history _ _ _ _ _ _ _ _ _ _ H Hd R (Hm m (elem_of_list_here _ _))) as (H1 & A1 & A2 & _).
    destruct (revoke_as_admin _ _ g1 _ _ _ _ _ _) as [[[g2 rs2] sg2]|] eqn:R2; [|discriminate]. injection E as <- <- <-.
    destruct (IH _ _ _ _ _ _ H1 (elem_of_list_further _ _ _ Hd) (fun m' Hm' => elem_of_list_further _ _ _ (Hm m' (elem_of_list_further _ _ _ Hm'))) R2) as [H2 A].
    rewrite after_revs_cons. split; [exact H2|]. intros r Hr. apply elem_of_cons in Hr as [->|Hr]; [auto|apply A, Hr].
Qed.
Lemma find_elem {A} (f : A -> bool) l x : List.find f l = Some x -> x ∈ l.
Proof. intros H. apply List.find_some in H as [H _]. apply elem_of_list_In, H. Qed.
Lemma revoke_delegation_history signer target d content ops g sigs g' rs sigs' :
  history order ops g -> MD d ∈ ops -> (forall l, gr_members g !! signer = Some l -> forall m, m ∈ l -> MD m ∈ ops) ->
  revoke_delegation order e g signer target d content sigs = GOk (g', rs, sigs') -> sound (after_revs rs ops) ->
  history order (after_revs rs ops) g' /\ rs <> [] /\ forall r, r ∈ rs -> r_revoke r = d /\ r_issuer r = signer.
Proof.
  intros H Hd Hm E S. unfold revoke_delegation in E.
  destruct (revoke_as_admin _ _ _ _ _ _ _ _ _) as [[[g1 rs1] sg1]|] eqn:R1; [|discriminate].
  assert (Hmine : forall m, m ∈ default [] (gr_members g !! signer) -> MD m ∈ ops).
  { intros m Q. destruct (gr_members g !! signer) as [l|]; [|inversion Q]. apply (Hm l eq_refl m Q). }
  destruct (revoke_as_admin_history _ _ _ _ _ _ _ _ _ _ _ H Hd Hmine R1) as [H1 A1].
  assert (Hd1 : MD d ∈ after_revs rs1 ops) by (apply after_revs_in; auto).
  cbv zeta in E.
  assert (Fin : forall p g2 r2 sg2, MD p ∈ after_revs rs1 ops -> revoke_one order e g1 signer d (Some p) content sg1 = GOk (g2, r2, sg2) ->
    history order (after_revs (rs1 ++ [r2]) ops) g2 /\ rs1 ++ [r2] <> [] /\ forall r, r ∈ rs1 ++ [r2] -> r_revoke r = d /\ r_issuer r = signer).
  { intros p g2 r2 sg2 Hp R. destruct (revoke_one_history _ _ _ _ _ _ _ _ _ _ H1 Hd1 R Hp) as (H2 & B1 & B2 & _).
    rewrite after_revs_app. split; [exact H2|]. split; [intros Q; destruct rs1; discriminate|]. intros r Hr. apply elem_of_app in Hr as [Hr|Hr]; [apply A1, Hr|].
    apply elem_of_list_singleton in Hr as ->. auto. }
  destruct (if d_issuer d =? signer then Some d else List.find (fun a => d_issuer a =? signer) (lineage d)) as [p|] eqn:Ep.
  - assert (Hp : MD p ∈ after_revs rs1 ops).
    { destruct (d_issuer d =? signer); [injection Ep as <-; exact Hd1|]. apply find_elem in Ep. apply lineage_rtc in Ep.
      apply (rtc_in (fun o => o ∈ after_revs rs1 ops) (MD d)); [apply (history_closed order _ _ H1)|exact Hd1|apply tc_rtc, Ep]. }
    destruct (revoke_one _ _ _ _ _ _ _ _) as [[[g2 r2] sg2]|] eqn:R2; [|discriminate]. injection E as <- <- <-. eapply Fin; eauto.
  - destruct rs1 as [|r1 rs1].
    + destruct (find_revoker _ _ _ _ _ _) as [[p|]|] eqn:F; try discriminate.
      destruct (revoke_one _ _ _ _ _ _ _ _) as [[[g2 r2] sg2]|] eqn:R2; [|discriminate]. injection E as <- <- <-. eapply Fin; [|exact R2].
      apply (find_revoker_in (after_revs [] ops) g1 signer (d_can d) (order (dom (gr_members g1)))); [exact H1| |exact F].
      eapply sound_sub; [|exact S]. intros o Ho. apply after_revs_in. right. exact Ho.
    + injection E as <- <- <-. split; [exact H1|]. split; [discriminate|exact A1].
Qed.
Lemma revoke_delegations_history signer target content l : forall ops g sigs g' rs sigs',
  history order ops g -> (forall d, d ∈ l -> MD d ∈ ops) ->
  revoke_delegations order e g signer target l content sigs = GOk (g', rs, sigs') -> sound (after_revs rs ops) ->
  history order (after_revs rs ops) g' /\ (forall r, r ∈ rs -> r_revoke r ∈ l /\ r_issuer r = signer) /\ (forall d, d ∈ l -> exists r, r ∈ rs /\ r_revoke r = d).
Proof.
  induction l as [|d l IH]; intros ops g sigs g' rs sigs' H Hl E S; cbn in E.
  { injection E as <- <- <-. split; [exact H|]. split; intros r Hr; inversion Hr. }
  match type of E with match ?X with _ => _ end = _ => destruct X as [[[g1 rs1] sg1]|] eqn:R1 end; [|discriminate].
  destruct (revoke_delegations _ _ g1 _ _ _ _ _) as [[[g2 rs2] sg2]|] eqn:R2; [|discriminate]. injection E as <- <- <-.
  assert (S0 : sound (after_revs rs1 ops)).
  { eapply sound_sub; [|exact S]. intros o Ho. rewrite after_revs_app. apply after_revs_in. auto. }
  assert (X : history order (after_revs rs1 ops) g1 /\ rs1 <> [] /\ forall r, r ∈ rs1 -> r_revoke r = d /\ r_issuer r = signer).
  { destruct (signer =? gr_id g).
    - destruct (revoke_one _ _ _ _ _ _ _ _) as [[[g3 r3] sg3]|] eqn:R3; [|discriminate]. injection R1 as <- <- <-.
      destruct (revoke_one_history _ _ _ _ _ _ _ _ _ _ H (Hl d (elem_of_list_here _ _)) R3 I) as (H2 & B1 & B2 & _).
      split; [exact H2|]. split; [discriminate|]. intros r Hr. apply elem_of_list_singleton in Hr as ->. auto.
    - eapply revoke_delegation_history; [exact H|apply Hl; left| |exact R1|exact S0].
      intros l' L m Hm. eapply member_in; eauto. eapply sound_sub; [|exact S0]. intros o Ho. apply after_revs_in. auto. }
  destruct X as (H1 & N1 & A1). rewrite after_revs_app in S |- *.
  destruct (IH _ _ _ _ _ _ H1 (fun d' Hd' => proj2 (after_revs_in _ _ _) (or_intror (Hl d' (elem_of_list_further _ _ _ Hd')))) R2 S) as (H2 & A2 & A3).
  split; [exact H2|]. split.
  - intros r Hr. apply elem_of_app in Hr as [Hr|Hr]; [destruct (A1 _ Hr) as [-> I]; split; [left|exact I]|destruct (A2 _ Hr) as [Q I]; split; [right; exact Q|exact I]].
  - intros x Hx. apply elem_of_cons in Hx as [->|Hx].
    + destruct rs1 as [|r rs1]; [contradiction|]. exists r. split; [left|]. apply A1. left.
    + destruct (A3 _ Hx) as (r & Hr & Q). exists r. split; [apply elem_of_app; right; exact Hr|exact Q].
Qed.
Lemma redelegate_history signer target content l : forall ops g sigs g' ns,
  history order ops g -> redelegate order e g signer target l content sigs = GOk (g', ns) ->
  sound (reverse (map MD ns) ++ ops) -> history order (reverse (map MD ns) ++ ops) g' /\ forall d, d ∈ ns -> d_issuer d = signer.
Proof.
  induction l as [|d l IH]; intros ops g sigs g' ns H E S; cbn in E.
  { injection E as <- <-. split; [exact H|]. intros d Hd. inversion Hd. }
  match type of E with (if ?b then _ else _) = _ => destruct b end; [|eapply (IH ops g sigs); eauto].
  destruct sigs as [|s sigs]; [discriminate|]. destruct (add_member _ _ _ _ _ _ _ _) as [[g1 d1]|] eqn:A; [|discriminate].
  destruct (redelegate _ _ g1 _ _ _ _ _) as [[g2 ns2]|] eqn:R; [|discriminate]. injection E as <- <-. change (map MD (d1 :: ns2)) with (MD d1 :: map MD ns2) in *. rewrite reverse_cons, <- app_assoc in S |- *.
  assert (S0 : sound ops). { eapply sound_sub; [|exact S]. intros o Ho. apply elem_of_app. right. right. exact Ho. }
  destruct (add_member_history _ _ _ _ _ _ _ _ _ H S0 A) as (H1 & _ & I1 & _). destruct (IH _ _ _ _ _ H1 R S) as [H2 A2].
  split; [exact H2|]. intros x Hx. apply elem_of_cons in Hx as [->|Hx]; auto.
Qed.
Lemma revoke_member_history ops g target retain signer content sigs g' rs ns :
  history order ops g -> gr_members g !! target <> None -> revoke_member order e g target retain signer content sigs = GOk (g', rs, ns) ->
  sound (reverse (map MD ns) ++ after_revs rs ops) ->
  history order (reverse (map MD ns) ++ after_revs rs ops) g' /\
  (forall r, r ∈ rs -> r_issuer r = signer /\ d_delegate (r_revoke r) = target /\ holds g (r_revoke r)) /\
  (forall d, holds g d -> d_delegate d = target -> exists r, r ∈ rs /\ r_revoke r = d) /\
  (forall d, d ∈ ns -> d_issuer d = signer).
Proof.
  intros H N E S. unfold revoke_member in E. cbv zeta in E. destruct (gr_members g !! target) as [ds|] eqn:L; [|contradiction]. cbn [default id] in E.
  assert (S0 : sound (after_revs rs ops)). { eapply sound_sub; [|exact S]. intros o Ho. apply elem_of_app. auto. }
  assert (S1 : sound ops). { eapply sound_sub; [|exact S0]. intros o Ho. apply after_revs_in. auto. }
  destruct S1 as [U1 D1]. pose proof (members_wf order Hord ops g H U1 D1) as W. destruct (W _ _ L) as [Ne Wd].
  destruct ds as [|d0 ds]; [contradiction|].
  destruct (revoke_delegations _ _ _ _ _ _ _ _) as [[[g1 rs1] sg1]|] eqn:R1; [|discriminate].
  assert (rs1 = rs) as ->. { destruct retain; [destruct (redelegate _ _ _ _ _ _ _ _) as [[? ?]|]; [|discriminate]|]; injection E as <- <- <-; reflexivity. }
  assert (Hl : forall d, d ∈ d0 :: ds -> MD d ∈ ops).
  { intros d Hd. eapply member_in; [exact H|split; assumption|exact L|exact Hd]. }
  destruct (revoke_delegations_history _ _ _ _ _ _ _ _ _ _ H Hl R1 S0) as (H1 & A1 & A2).
  assert (C1 : forall r, r ∈ rs -> r_issuer r = signer /\ d_delegate (r_revoke r) = target /\ holds g (r_revoke r)).
  { intros r Hr. destruct (A1 _ Hr) as [Q I]. split; [exact I|]. split; [apply Wd, Q|]. exists (d0 :: ds). rewrite (Wd _ Q). auto. }
  assert (C2 : forall d, holds g d -> d_delegate d = target -> exists r, r ∈ rs /\ r_revoke r = d).
  { intros d (l & Q & Hd) T. rewrite T, L in Q. injection Q as <-. apply A2, Hd. }
  destruct retain.
  - destruct (redelegate _ _ _ _ _ _ _ _) as [[g2 ns2]|] eqn:R2; [|discriminate]. injection E as <- <-.
    destruct (redelegate_history _ _ _ _ _ _ _ _ _ H1 R2 S) as [H2 A3]. auto.
  - injection E as <- <-. split; [exact H1|]. split; [exact C1|]. split; [exact C2|]. intros d Hd. inversion Hd.
Qed.
End local.

(** ** What rests on a revoked delegation *)
Lemma split_at {A} (l : list A) x : x ∈ l -> exists a b, l = a ++ x :: b.
Proof. apply elem_of_list_split. Qed.
Section dependents.
Context (order : gset nat -> list nat) (Hord : some_order order) (gid : ident) (P : mop -> Prop) (HC : closed P) (HU : genuine P).
Lemma play_revocation_has s r s' d : play_revocation order gid s r = Some s' -> has (p_members s') d -> has (p_members s) d.
Proof.
  intros E H. destruct (play_revocation_cases order gid s r s' E) as [[-> _]|(inp & rv & td & _ & ->)]; [exact H|]. cbn [p_members] in H. clear E. revert H.
  generalize (p_members s). induction td as [|[i x] td IH]; intros m; cbn [foldl]; [auto|]. intros H. apply IH in H. apply drop_member_has in H. tauto.
Qed.
Lemma later_has s l s' d : play_ops order gid s l = Some s' -> MD d ∉ l -> has (p_members s') d -> has (p_members s) d.
Proof.
  revert s. induction l as [|o l IH]; intros s E N H; cbn in E; [congruence|]. destruct (play_op order gid s o) as [s1|] eqn:E1; [|discriminate].
  apply (IH s1) in H; [|exact E|intros Q; apply N; right; exact Q]. destruct o as [x|r]; cbn in E1.
  - injection E1 as <-. apply play_delegation_has in H as [H|[-> _]]; [exact H|]. exfalso. apply N. left.
  - eapply play_revocation_has; eauto.
Qed.
Lemma active_once s l s' x r : play_ops order gid s l = Some s' -> (forall r', MR r' ∈ l -> r_sig r' <> x) -> p_active s' !! x = Some r -> p_active s !! x = Some r.
Proof.
  revert s. induction l as [|o l IH]; intros s E N H; cbn in E; [congruence|]. destruct (play_op order gid s o) as [s1|] eqn:E1; [|discriminate].
  apply (IH s1) in H; [|exact E|intros r' Q; apply N; right; exact Q]. destruct o as [d|r0]; cbn in E1.
  - injection E1 as <-. rewrite play_active_delegation in H. exact H.
  - destruct (play_revocation_cases order gid s r0 s1 E1) as [[-> _]|(inp & rv & td & _ & ->)]; [exact H|]. cbn [p_active] in H.
    rewrite lookup_insert_ne in H; [exact H|]. apply N. left.
Qed.
Lemma dependent_dropped l s d p r : (forall o, o ∈ l -> P o) -> NoDup l -> causal l -> late l -> play_ops order gid no_play l = Some s ->
  MD d ∈ l -> d_proof d = Some p -> MR r ∈ l -> r_revoke r = p -> p_active s !! r_sig r = Some r -> d_issuer p <> gid ->
  (forall a, MD a ∈ l -> d_delegate a = d_issuer p -> a <> p -> rank (d_can p) <= rank (d_can a) ->
     exists r', p_active s !! r_sig r' = Some r' /\ r_revoke r' = a /\ rtc depends_on (MD d) (MR r')) ->
  ~ has (p_members s) d.
Proof.
  intros Hl ND Ca La E Hd Ep Hr Er Ac Ni Alts Hh. apply split_at in Hd as (a & b & ->).
  rewrite (play_ops_app order gid) in E. assert (Ha : forall o, o ∈ a -> P o) by (intros o Ho; apply Hl, elem_of_app; auto).
  destruct (played_all order Hord gid P HC HU a Ha) as (s0 & E0 & I0). rewrite E0 in E. cbn [play_ops play_op] in E.
  apply NoDup_app in ND as (ND1 & Nab & ND2). apply NoDup_cons in ND2 as [Nb ND2].
  assert (Cpre : causal a). { intros x o y -> q Hq. apply (Ca x o (y ++ MD d :: b)); [rewrite <- app_assoc; reflexivity|exact Hq]. }
  assert (Lpre : late a). { intros x o y -> q q' Hq. apply (La x o (y ++ MD d :: b)); [rewrite <- app_assoc; reflexivity|exact Hq]. }
  destruct (played_strict order Hord gid P HC HU a s0 Ha ND1 Cpre Lpre E0) as [St1 St2].
  assert (Early : forall r', MR r' ∈ a -> p_active s !! r_sig r' = Some r' -> p_in s0 !! d_sig (r_revoke r') = None).
  { intros r' H1 H2. apply (St2 (r_sig r')). apply (active_once (play_delegation gid s0 d) b s) in H2; [rewrite play_active_delegation in H2; exact H2|exact E|].
    intros r2 Hr2 Sg. assert (MR r2 = MR r') as Q.
    { apply HU; [apply Hl, elem_of_app; right; right; exact Hr2|apply Ha, H1|exact Sg]. }
    apply (Nab (MR r') H1). right. rewrite <- Q. exact Hr2. }
  assert (Hra : MR r ∈ a).
  { apply elem_of_app in Hr as [Hr|Hr]; [exact Hr|]. apply elem_of_cons in Hr as [Q|Hr]; [discriminate|]. exfalso. apply split_at in Hr as (b1 & b2 & ->).
    apply (La (a ++ MD d :: b1) r b2) with (d := d) (p := p); [rewrite <- app_assoc; reflexivity|apply elem_of_app; right; left|exact Ep|congruence]. }
  assert (Inp : p_in s0 !! d_sig p = None) by (rewrite <- Er; apply Early; auto).
  assert (Pd : P (MD d)) by (apply Hl, elem_of_app; right; left). assert (Pp : P (MD p)) by (eapply HC; [exact Pd|apply proof_parent, Ep]).
  assert (Nd : ~ has (p_members s0) d). { intros Q. apply (pl_has _ _ _ I0) in Q. apply (Nab _ Q). left. }
  apply (later_has (play_delegation gid s0 d) b s d E) in Hh; [|exact Nb]. revert Hh. unfold play_delegation. cbv zeta. rewrite Ep. cbn [p_members p_in p_revoked p_active p_rdep].
  rewrite bool_decide_eq_true_2 by auto.
  match goal with |- has (p_members (if ?c then _ else _)) _ -> _ => assert (c = true) as -> end; [|exact Nd].
  destruct (p_members s0 !! d_issuer p) as [alts|] eqn:M; [|apply negb_true_iff, Nat.eqb_neq, Ni].
  apply forallb_forall. intros x Hx. apply elem_of_list_In, elem_of_list_filter in Hx as [Ne Hx].
  pose proof (pl_wf _ _ _ I0) as W. destruct (W _ _ M) as [_ Wd]. pose proof (wf_has _ _ _ _ W M Hx) as Hhx. pose proof (pl_has _ _ _ I0 _ Hhx) as Hxa.
  unfold alt. apply Nat.ltb_lt. destruct (le_lt_dec (rank (d_can p)) (rank (d_can x))) as [L|L]; [|exact L]. exfalso.
  destruct (Alts x) as (r' & A1 & A2 & A3); [apply elem_of_app; auto|apply Wd, Hx| |exact L|].
  { intros ->. unfold dlg_eqb in Ne. rewrite !Nat.eqb_refl in Ne. discriminate. }
  assert (Hr' : MR r' ∈ a).
  { inversion A3 as [|? y ? S1 S2]; subst. assert (Hy : y ∈ a) by (apply (Ca a (MD d) b eq_refl), S1).
    clear -S2 Hy Cpre. induction S2 as [|y z w S _ IH]; [exact Hy|]. apply IH. apply split_at in Hy as (u & v & ->).
    apply elem_of_app. left. apply (Cpre u y v eq_refl). exact S. }
  pose proof (Early _ Hr' A1) as Z. rewrite A2 in Z. rewrite (St1 _ Hhx) in Z. discriminate.
Qed.
End dependents.
Lemma dependent_lemma order ops g d p r : some_order order -> history order ops g -> genuine (fun o => o ∈ ops) -> distinct_grants (fun o => o ∈ ops) ->
  orderable (fun o => o ∈ ops) -> revoked_once (fun o => o ∈ ops) ->
  MD d ∈ ops -> rests_on d p -> r_revoke r = p -> gr_active g !! r_sig r = Some r -> d_issuer p <> gr_id g ->
  (forall a, MD a ∈ ops -> d_delegate a = d_issuer p -> a <> p -> rank (d_can p) <= rank (d_can a) ->
     exists r', gr_active g !! r_sig r' = Some r' /\ r_revoke r' = a /\ rtc depends_on (MD d) (MR r')) ->
  ~ holds g d.
Proof.
  intros O H U D Q R Hd Ep Er Ac Ni Alts (m & E & Hm).
  destruct (replayed order O ops g H U D) as (l & s & _ & ND & L1 & L2 & L3 & L4 & P & I & M & M').
  pose proof (hist_cons order O ops g H U D) as C.
  assert (Kn : forall o, o ∈ l -> known g o) by (intros o Ho; apply (cs_known _ _ _ C), L1, Ho).
  rewrite M' in Ac. destruct (pl_act _ _ _ I _ _ Ac) as [Hr _].
  apply (dependent_dropped order O (gr_id g) (known g) (known_closed g) (known_genuine order O ops g H U D) l s d p r Kn ND (L2 Q) (L3 R) P (L4 Q _ Hd) Ep Hr Er Ac Ni).
  - intros a Ha A1 A2 A3. rewrite <- M'. apply Alts; auto.
  - exists m. rewrite <- M. auto.
Qed.

(** ** Who may do what *)
Lemma rebuilds order (ops : list mop) g0 : some_order order -> filed g0 -> (forall o, known g0 o -> o ∈ ops) -> genuine (fun o => o ∈ ops) -> exists g', rebuild order g0 = Some g'.
Proof.
  intros O F K U. destruct (rebuild_play order O g0 F) as (l & s & _ & _ & _ & E); [|eauto]. intros a b A B. apply U; apply K; assumption.
Qed.
Lemma receive_revocation_ok order e ops g r : some_order order -> history order ops g -> sound (MR r :: ops) ->
  (forall p, p ∈ parents (MR r) -> p ∈ ops) -> (exists g', add_revocation order e g r = GOk g') -> exists g', receive_revocation order e g r = GOk g'.
Proof.
  intros O H S Hp (g1 & A). assert (S0 : sound ops) by (eapply sound_sub; [|exact S]; intros o Ho; right; exact Ho). destruct S0 as [U0 D0]. destruct S as [U D].
  pose proof (hist_cons order O ops g H U0 D0) as C. unfold receive_revocation. rewrite A. cbn.
  unfold add_revocation in A. destruct (negb _); [discriminate|]. match type of A with match ?X with _ => _ end = _ => destruct X end; [discriminate|]. injection A as <-.
  destruct (add_known_rev g r (gr_members g) (gr_active g) (fun o => o ∈ MR r :: ops) U (cs_filed _ _ _ C)) as (F' & K').
  { intros o Ko. right. apply (cs_known _ _ _ C), Ko. } { left. }
  destruct (rebuilds order (MR r :: ops) _ O F') with (2 := U) as (g' & ->); [|eauto].
  intros o Ko. apply K' in Ko as [Ko|Ko]; [right; apply (cs_known _ _ _ C), Ko|]. inversion Ko as [|? y ? S1 S2]; subst; [left|]. right.
  apply (rtc_in (fun x => x ∈ ops) y o); [exact (history_closed _ _ _ H)|apply Hp, S1|exact S2].
Qed.
Lemma receive_delegation_ok order e ops g d : some_order order -> history order ops g -> sound (MD d :: ops) ->
  (forall p, p ∈ parents (MD d) -> p ∈ ops) -> (exists g', add_delegation order e g d = GOk g') -> exists g', receive_delegation order e g d = GOk g'.
Proof.
  intros O H S Hp (g1 & A). assert (S0 : sound ops) by (eapply sound_sub; [|exact S]; intros o Ho; right; exact Ho). destruct S0 as [U0 D0]. destruct S as [U D].
  pose proof (hist_cons order O ops g H U0 D0) as C. unfold receive_delegation. rewrite A. cbn.
  unfold add_delegation in A. destruct (negb _); [discriminate|]. match type of A with (if ?X then _ else _) = _ => destruct X end; [discriminate|].
  destruct (check_chain _ _ _ _ _); [discriminate|]. injection A as <-.
  assert (CC : closed (fun o => o ∈ MD d :: ops)).
  { intros o p Ho Hin. apply elem_of_cons in Ho as [->|Ho]; right; [auto|eapply (history_closed _ _ _ H); eauto]. }
  destruct (add_known order O g d (gr_members g) (gr_active g) (fun o => o ∈ MD d :: ops) CC U D (cs_filed _ _ _ C) (cs_heads _ _ _ C)) as (F' & _ & K').
  { intros o Ko. right. apply (cs_known _ _ _ C), Ko. } { left. }
  destruct (rebuilds order (MD d :: ops) _ O F') with (2 := U) as (g' & ->); [|eauto].
  intros o Ko. apply K' in Ko as [Ko|Ko]; [right; apply (cs_known _ _ _ C), Ko|]. apply (rtc_in (fun x => x ∈ MD d :: ops) (MD d) o); [exact CC|left|exact Ko].
Qed.
Lemma group_revokes_lemma order e ops g r : some_order order -> history order ops g -> sound (MR r :: ops) ->
  MD (r_revoke r) ∈ ops -> r_proof r = None -> r_issuer r = gr_id g -> exists g', receive_revocation order e g r = GOk g'.
Proof.
  intros O H S Hd Ep I. assert (S0 : sound ops) by (eapply sound_sub; [|exact S]; intros o Ho; right; exact Ho). destruct S0 as [U0 D0].
  pose proof (hist_cons order O ops g H U0 D0) as C. eapply receive_revocation_ok; eauto.
  - intros q Hq. cbn in Hq. rewrite Ep in Hq. apply elem_of_list_singleton in Hq as ->. exact Hd.
  - unfold add_revocation, r_subject. rewrite (cs_subject _ _ _ C _ Hd), Nat.eqb_refl, Ep, I, Nat.eqb_refl. cbn. eauto.
Qed.
(** Every link of the chain was signed by the very delegate of the one above. *)
Definition signed_directly (d : dlg) : Prop := forall a p, in_chain d a -> rests_on a p -> d_issuer a = d_delegate p.
Lemma check_chain_direct order e can d : (forall q, q ∈ lineage d -> rank can <= rank (d_can q)) -> signed_directly d -> check_chain order e can d (lineage d) = None.
Proof.
  remember (d_size d) as n eqn:E. assert (L : d_size d <= n) by lia. clear E. revert d L. induction n as [|n IH]; intros d L R Sd.
  { destruct d; cbn in L; lia. }
  destruct (d_proof d) as [p|] eqn:E; [|rewrite (lineage_none _ E); reflexivity]. rewrite (lineage_proof _ _ E) in R |- *. cbn.
  rewrite (proj2 (ale_rank can (d_can p))) by (apply R; left). cbn. rewrite (Sd d p (rtc_refl _ _) E), Nat.eqb_refl. cbn. apply IH.
  - destruct d as [s i t c pr af co]. cbn in E. subst pr. cbn in L. lia.
  - intros q Hq. apply R. right. exact Hq.
  - intros a q C. apply Sd. eapply rtc_l; [exact E|exact C].
Qed.
Lemma member_delegates_lemma order e ops g d p : some_order order -> history order ops g -> sound (MD d :: ops) ->
  (forall q, q ∈ parents (MD d) -> q ∈ ops) -> rests_on d p -> d_issuer d = d_delegate p -> rank (d_can d) <= rank (d_can p) -> signed_directly p ->
  exists g', receive_delegation order e g d = GOk g'.
Proof.
  intros O H S Hp Ep I L Sd. assert (S0 : sound ops) by (eapply sound_sub; [|exact S]; intros o Ho; right; exact Ho). destruct S0 as [U0 D0].
  pose proof (hist_cons order O ops g H U0 D0) as C. eapply receive_delegation_ok; eauto.
  assert (Hpp : MD p ∈ ops) by (apply Hp, proof_parent, Ep).
  unfold add_delegation. assert (Sj : d_subject d = d_subject p). { destruct d as [s i t c pr af co]. unfold rests_on in Ep. cbn in Ep. subst pr. reflexivity. }
  rewrite Sj, (cs_subject _ _ _ C _ Hpp), Nat.eqb_refl. cbn [negb]. unfold rests_on in Ep. rewrite Ep.
  rewrite (check_chain_direct order e (d_can d) d); [eauto| |].
  - intros q Hq. rewrite (lineage_proof _ _ Ep) in Hq. apply in_chain_lineage in Hq. pose proof (chain_best _ _ _ H p q Hpp Hq). lia.
  - intros a q Ca R. inversion Ca as [|? y ? S1 S2]; subst.
    + unfold rests_on in R. congruence.
    + unfold rests_on in S1. rewrite Ep in S1. injection S1 as <-. apply Sd; assumption.
Qed.
Lemma group_delegates_lemma order e ops g d : some_order order -> history order ops g -> sound (MD d :: ops) ->
  (forall r, r ∈ d_after d -> MR r ∈ ops) -> d_proof d = None -> d_issuer d = gr_id g -> exists g', receive_delegation order e g d = GOk g'.
Proof.
  intros O H S Ha Ep I. eapply receive_delegation_ok; eauto.
  - intros q Hq. cbn in Hq. rewrite Ep in Hq. cbn in Hq. apply elem_of_list_fmap in Hq as (r & -> & Hr). auto.
  - unfold add_delegation. destruct d as [s i t c pr af co]. cbn in Ep, I |- *. subst. rewrite Nat.eqb_refl. cbn. eauto.
Qed.
(** The group's own key removes a member: all delegations the member held are gone. *)
Lemma revoke_delegations_root order e signer target content l : forall g sigs g' rs sigs', signer = gr_id g ->
  revoke_delegations order e g signer target l content sigs = GOk (g', rs, sigs') -> forall r, r ∈ rs -> r_proof r = None.
Proof.
  induction l as [|d l IH]; intros g sigs g' rs sigs' I E r Hr; cbn in E.
  { injection E as <- <- <-. inversion Hr. }
  rewrite I, Nat.eqb_refl in E. unfold revoke_one in E. destruct sigs as [|s sigs]; [discriminate|]. cbv zeta in E.
  destruct (receive_revocation _ _ _ _) as [g1|] eqn:R1; [|discriminate]. rewrite <- I in E.
  destruct (revoke_delegations _ _ g1 _ _ _ _ _) as [[[g2 rs2] sg2]|] eqn:R2; [|discriminate]. injection E as <- <- <-.
  apply elem_of_cons in Hr as [->|Hr]; [reflexivity|]. apply (IH g1 sigs g2 rs2 sg2); auto.
  destruct (accepted_revocation _ _ _ _ _ R1) as (_ & _ & B). destruct (rebuild_keeps _ _ _ B) as (-> & _). exact I.
Qed.
Lemma history_id order ops g : history order ops g -> forall e r g', receive_revocation order e g r = GOk g' -> gr_id g' = gr_id g.
Proof. intros _ e r g' E. destruct (accepted_revocation _ _ _ _ _ E) as (_ & _ & B). destruct (rebuild_keeps _ _ _ B) as (-> & _). reflexivity. Qed.
Lemma group_removes_lemma order e ops g target retain content sigs g' rs ns : some_order order -> history order ops g ->
  gr_members g !! target <> None -> revoke_member order e g target retain (gr_id g) content sigs = GOk (g', rs, ns) ->
  let ops' := reverse (map MD ns) ++ reverse (map MR rs) ++ ops in
  sound ops' -> orderable (fun o => o ∈ ops') -> revoked_once (fun o => o ∈ ops') ->
  forall d, holds g d -> d_delegate d = target -> ~ holds g' d.
Proof.
  intros O H N E ops' S Q R d Hd T. destruct (revoke_member_history order O e ops g target retain (gr_id g) content sigs g' rs ns H N E S) as (H' & A1 & A2 & A3).
  destruct (A2 d Hd T) as (r & Hr & <-). destruct S as [U D]. apply (revoked_lemma order O ops' g' H' U D r Q R).
  apply (active_lemma order O ops' g' H' U D r Q).
  - apply elem_of_app. right. apply elem_of_app. left. rewrite elem_of_reverse, elem_of_list_fmap. eauto.
  - destruct (A1 _ Hr) as (I & _). assert (Z : r_proof r = None).
    { unfold revoke_member in E. cbv zeta in E. destruct (default [] (gr_members g !! target)) as [|d0 ds]; [injection E as <- <- <-; inversion Hr|].
      destruct (revoke_delegations _ _ _ _ _ _ _ _) as [[[g1 rs1] sg1]|] eqn:R1; [|discriminate].
      assert (rs1 = rs) as ->. { destruct retain; [destruct (redelegate _ _ _ _ _ _ _ _) as [[? ?]|]; [|discriminate]|]; injection E as <- <- <-; reflexivity. }
      apply (revoke_delegations_root _ _ _ _ _ _ _ _ _ _ _ eq_refl R1 r Hr). }
    rewrite Z, I. pose proof (hist_cons order O ops' g' H' U D) as C.
    assert (U0 : genuine (fun o => o ∈ ops) /\ distinct_grants (fun o => o ∈ ops)).
    { eapply sound_sub; [|split; [exact U|exact D]]. intros o Ho. apply elem_of_app. right. apply elem_of_app. right. exact Ho. }
    destruct U0 as [U0 D0]. pose proof (hist_cons order O ops g H U0 D0) as C0. pose proof (holds_in order O ops g H U0 D0 _ Hd) as Hin.
    rewrite <- (cs_subject _ _ _ C0 _ Hin). apply (cs_subject _ _ _ C). apply elem_of_app. right. apply elem_of_app. right. exact Hin.
Qed.

(** ** Access in a group without groups in it *)
Lemma flat_loop order e self stack : forall f seen caps, length stack <= f ->
  (forall x, x ∈ stack -> e !! x.1.1 = None /\ x.1.1 <> self /\ x.2 = Admin) -> NoDup (map (fun x => x.1.1) stack) ->
  exists caps', transitive_loop order f e self stack seen caps = Some caps' /\
    (forall x, x ∈ stack -> caps' !! x.1.1 = Some x.1.2) /\ (forall i, i ∉ map (fun x => x.1.1) stack -> caps' !! i = caps !! i).
Proof.
  induction stack as [|[[m acc] par] stack IH]; intros f seen caps L H ND.
  { exists caps. destruct f; cbn; (split; [reflexivity|]); (split; [intros x Hx; inversion Hx|auto]). }
  destruct f as [|f]; [cbn in L; lia|]. destruct (H (m, acc, par) (elem_of_list_here _ _)) as (E & N & A). cbn in E, N, A. subst par.
  cbn [map fst snd] in ND. apply NoDup_cons in ND as [Nm ND]. cbn in L. cbn [transitive_loop]. rewrite (proj2 (Nat.eqb_neq m self) N). cbv zeta. rewrite E.
  destruct (IH f seen (<[m := amin acc Admin]> caps)) as (caps' & Q & C1 & C2); [lia|intros x Hx; apply H; right; exact Hx|exact ND|].
  exists caps'. split; [exact Q|]. split.
  - intros x Hx. apply elem_of_cons in Hx as [->|Hx]; [|apply C1, Hx]. cbn. rewrite C2 by exact Nm. rewrite lookup_insert. destruct acc; reflexivity.
  - intros i Hi. cbn in Hi. apply not_elem_of_cons in Hi as [Hi1 Hi2]. rewrite C2 by exact Hi2. apply lookup_insert_ne. congruence.
Qed.
Lemma flat_lemma order e self mems : some_order order -> sane e -> e !! self = Some mems -> (forall i, is_Some (mems !! i) -> e !! i = None) ->
  exists caps, transitive_members order e self mems = Some caps /\ forall i, caps !! i = d_can <$> get_capability mems i.
Proof.
  intros O Sn E Fl. destruct Sn as [S1 S2]. unfold transitive_members. cbv zeta.
  set (cs := omap (get_capability mems) (order (dom mems))).
  assert (Cap : forall i d, get_capability mems i = Some d -> d_delegate d = i /\ is_Some (mems !! i)).
  { intros i d Hd. unfold get_capability in Hd. destruct (mems !! i) as [l|] eqn:M; [|discriminate]. destruct (S1 _ _ _ _ E M) as [_ D]. split; [apply D, best_dlg_in, Hd|eauto]. }
  assert (Dg : map d_delegate cs = omap (fun i => d_delegate <$> get_capability mems i) (order (dom mems))).
  { unfold cs. induction (order (dom mems)) as [|i l IH]; [reflexivity|]. cbn. destruct (get_capability mems i); cbn; rewrite <- IH; reflexivity. }
  assert (Ids : map d_delegate cs = order (dom mems)).
  { rewrite Dg. clear Dg. clearbody cs. assert (W : forall i, i ∈ order (dom mems) -> is_Some (mems !! i)) by (intros i Hi; apply (order_dom order O), Hi).
    induction (order (dom mems)) as [|i l IH]; [reflexivity|]. cbn. destruct (W i (elem_of_list_here _ _)) as [x Mx].
    destruct (get_capability mems i) as [d|] eqn:G.
    - cbn. destruct (Cap _ _ G) as [-> _]. f_equal. apply IH. intros j Hj. apply W. right. exact Hj.
    - exfalso. unfold get_capability in G. rewrite Mx in G. destruct (S1 _ _ _ _ E Mx) as [Ne _]. destruct (best_dlg_some x Ne) as [y Y]. congruence. }
  assert (Ho : NoDup (order (dom mems))) by (rewrite (O (dom mems)); apply NoDup_elements).
  destruct (flat_loop order e self (reverse (map (fun d => (d_delegate d, d_can d, Admin)) cs)) (transitive_fuel e mems)
    (list_to_set (map (fun d => (d_sig d, rank Admin)) cs)) ∅) as (caps & Q & C1 & C2).
  - rewrite reverse_length, map_length. unfold cs. etransitivity; [apply omap_length|]. unfold transitive_fuel.
    rewrite (Permutation_length (O (dom mems))). change (length (elements (dom mems))) with (size (dom mems)). rewrite size_dom. lia.
  - intros x Hx. rewrite elem_of_reverse, elem_of_list_fmap in Hx. destruct Hx as (d & -> & Hd). cbn [fst snd]. unfold cs in Hd. apply elem_of_list_omap in Hd as (i & _ & G).
    destruct (Cap _ _ G) as [-> M]. split; [apply Fl, M|]. split; [|reflexivity]. intros Z. subst i. apply Fl in M. congruence.
  - change (map (fun x : ident * access * access => x.1.1)) with (fmap (M := list) (fun x : ident * access * access => x.1.1)). rewrite <- fmap_reverse.
    rewrite <- list_fmap_compose. change (NoDup (map d_delegate (reverse cs))).
    change (map d_delegate (reverse cs)) with (d_delegate <$> reverse cs). rewrite fmap_reverse. change (d_delegate <$> cs) with (map d_delegate cs). rewrite Ids, reverse_Permutation. exact Ho.
  - exists caps. split; [exact Q|]. intros i. destruct (get_capability mems i) as [d|] eqn:G.
    + destruct (Cap _ _ G) as [Di M]. assert (Hd : (d_delegate d, d_can d, Admin) ∈ reverse (map (fun d => (d_delegate d, d_can d, Admin)) cs)).
      { rewrite elem_of_reverse, elem_of_list_fmap. exists d. split; [reflexivity|]. unfold cs. apply elem_of_list_omap. exists i. split; [apply (order_dom order O), M|exact G]. }
      specialize (C1 _ Hd). cbn in C1. rewrite Di in C1. exact C1.
    + cbn. rewrite C2, lookup_empty; [reflexivity|]. intros Hi. apply elem_of_list_fmap in Hi as (x & -> & Hx). rewrite elem_of_reverse, elem_of_list_fmap in Hx.
      destruct Hx as (d & -> & Hd). cbn in G. unfold cs in Hd. apply elem_of_list_omap in Hd as (j & _ & G'). destruct (Cap _ _ G') as [<- _]. congruence.
Qed.
