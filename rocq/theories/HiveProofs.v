(** Proofs about receiving events. *)
From Coq Require Import Arith Lia.
From stdpp Require Import base list gmap relations sorting.
From Verif Require Import AccessModel GroupModel CgkaSpec GroupSpec GroupReplay GroupMembers GroupHistory GroupTransitive GroupPropsProofs PrekeyModel HiveModel HiveSpec.

Scheme supported_mut := Minimality for supported Sort Prop with reachable_mut := Minimality for reachable Sort Prop.
Combined Scheme supported_reachable from supported_mut, reachable_mut.

(** ** Operations made of events *)
Section events.
Context {cop : Type} (W : sevent cop -> Prop) (K : ident -> Prop).
Lemma from_closed : closed (from_events W).
Proof.
  intros o p Ho Hp. destruct Ho as [x q rs Wx Ep Er Hq Hr|x t q Wx Et Ep Ht Hq]; cbn in Hp.
  - apply elem_of_app in Hp as [Hp|Hp].
    + destruct q as [q|]; cbn in Hp; [|inversion Hp]. apply elem_of_list_singleton in Hp as ->. auto.
    + apply elem_of_list_fmap in Hp as (r & -> & Hin). auto.
  - apply elem_of_cons in Hp as [->|Hp]; [exact Ht|]. destruct q as [q|]; cbn in Hp; [|inversion Hp]. apply elem_of_list_singleton in Hp as ->. auto.
Qed.
Lemma supported_from : (forall o, supported W K o -> from_events W o) /\ (forall i, reachable W K i -> True).
Proof.
  apply supported_reachable; intros; auto; constructor; auto.
Qed.
Lemma sup_from o : supported W K o -> from_events W o.
Proof. apply supported_from. Qed.
Lemma sup_closed : closed (supported W K).
Proof.
  intros o p Ho Hp. destruct Ho as [x q rs Wx Ok Ep Er Hq Hr Ag G|x t q Wx Ok Et Ep Ht Hq G]; cbn in Hp.
  - apply elem_of_app in Hp as [Hp|Hp].
    + destruct q as [q|]; cbn in Hp; [|inversion Hp]. apply elem_of_list_singleton in Hp as ->. auto.
    + apply elem_of_list_fmap in Hp as (r & -> & Hin). auto.
  - apply elem_of_cons in Hp as [->|Hp]; [exact Ht|]. destruct q as [q|]; cbn in Hp; [|inversion Hp]. apply elem_of_list_singleton in Hp as ->. auto.
Qed.
Context (D : forall x y s, W x -> W y -> ev_sig x = Some s -> ev_sig y = Some s -> x = y).
Lemma from_genuine : genuine (from_events W).
Proof.
  intros a b A. revert b. induction A as [x p rs Wx Ep Er _ IHp _ IHr|x t p Wx Et Ep _ IHt _ IHp]; intros b B E.
  - destruct B as [y q ss Wy Eq Es Hq Hs|y u q Wy Eu Eq Hu Hq]; cbn in E.
    2: { specialize (D _ _ _ Wx Wy eq_refl (f_equal Some (eq_sym E))). discriminate. }
    specialize (D _ _ _ Wx Wy eq_refl (f_equal Some (eq_sym E))). injection D as <-. f_equal.
    assert (p = q) as <-.
    { destruct p as [p|], q as [q|]; cbn in Ep, Eq; try congruence. f_equal. assert (X : MD p = MD q) by (apply IHp; [reflexivity|apply Hq; reflexivity|cbn; congruence]). congruence. }
    assert (rs = ss) as <-; [|reflexivity]. clear Ep Eq IHp Hq E. rewrite <- Er in Es. clear Er. revert ss Es Hs. induction rs as [|r rs IH]; intros [|s ss] Es Hs; try discriminate; [reflexivity|].
    cbn in Es. injection Es as E1 E2. assert (X : MR r = MR s) by (apply IHr; [left|apply Hs; left|cbn; congruence]). injection X as <-. f_equal.
    apply IH; [intros; apply IHr; [right; assumption|assumption|assumption]|exact E2|intros; apply Hs; right; assumption].
  - destruct B as [y q ss Wy Eq Es Hq Hs|y u q Wy Eu Eq Hu Hq]; cbn in E.
    { specialize (D _ _ _ Wx Wy eq_refl (f_equal Some (eq_sym E))). discriminate. }
    specialize (D _ _ _ Wx Wy eq_refl (f_equal Some (eq_sym E))). injection D as <-. f_equal.
    assert (t = u) as <-. { assert (X : MD t = MD u) by (apply IHt; [exact Hu|cbn; congruence]). congruence. }
    assert (p = q) as <-; [|reflexivity].
    destruct p as [p|], q as [q|]; cbn in Ep, Eq; try congruence. f_equal. assert (X : MD p = MD q) by (apply IHp; [reflexivity|apply Hq; reflexivity|cbn; congruence]). congruence.
Qed.
End events.

(** ** Looking things up *)
Lemma find_revs_spec (revs : gmap sig rev) l rs : find_revs revs l = inr rs -> Forall2 (fun s r => revs !! s = Some r) l rs.
Proof.
  revert rs. induction l as [|s l IH]; intros rs; cbn.
  - intros [= <-]. constructor.
  - destruct (revs !! s) as [r|] eqn:E; [|discriminate]. destruct (find_revs revs l) as [|rs'] eqn:F; [discriminate|]. intros [= <-]. constructor; auto.
Qed.
Lemma find_revs_all (revs : gmap sig rev) l rs : Forall2 (fun s r => revs !! s = Some r) l rs -> find_revs revs l = inr rs.
Proof. induction 1 as [|s r l rs E F IH]; cbn; [reflexivity|]. rewrite E, IH. reflexivity. Qed.
Lemma find_proof_spec (dlgs : gmap sig dlg) s p : find_proof_dlg dlgs s = inr p <-> match s, p with Some s, Some d => dlgs !! s = Some d | None, None => True | _, _ => False end.
Proof.
  unfold find_proof_dlg. destruct s as [s|], p as [p|]; try (split; [discriminate|tauto]); try (split; [tauto|discriminate]).
  - destruct (dlgs !! s); split; congruence.
  - destruct (dlgs !! s); [split; [congruence|tauto]|split; [discriminate|tauto]].
  - split; auto.
Qed.

(** ** The invariant *)
Section hive.
Context (order : gset nat -> list nat) (O : some_order order) (doc_content : nat -> ident -> bool).
Context {cg cop : Type} `{EqDecision cop} (cop_doc : cop -> ident) (cop_ok : cop -> bool) (cg_receive : kstore -> cg -> cop -> cg * bool).
Context (W : sevent cop -> Prop) (K : ident -> Prop) (T : tame W K).
Notation hive := (hive cg cop).
Notation receive_event := (receive_event order doc_content cop_doc cop_ok cg_receive).

Record inv (h : hive) : Prop := {
  iv_dlgs : forall s d, h_dlgs h !! s = Some d -> d_sig d = s;
  iv_revs : forall s r, h_revs h !! s = Some r -> r_sig r = s;
  iv_sup : forall o, has_op h o -> supported W K o;
  iv_group : forall i g, has_group h i g -> gr_id g = i /\ exists ops, history order ops g /\ forall o, o ∈ ops <-> has_op h o /\ op_subject o = i;
  iv_subject : forall o, has_op h o -> exists g, has_group h (op_subject o) g;
  iv_once : forall i, is_Some (h_groups h !! i) -> is_Some (h_docs h !! i) -> False;
  iv_people : forall i, is_Some (ks_indies (h_keys h) !! i) -> K i \/ exists o, W (EKey o) /\ ko_issuer o = i;
  iv_active : K (ks_active (h_keys h));
  iv_known : forall i, K i -> known_agent h i = true;
  iv_docs : dom (ks_docs (h_keys h)) = dom (h_docs h);
  iv_groups : dom (ks_groups (h_keys h)) = dom (h_groups h);
  iv_public : is_Some (ks_indies (h_keys h) !! ks_public (h_keys h));
  iv_kind_group : forall i g, h_groups h !! i = Some g -> exists d, has_op h (MD d) /\ d_proof d = None /\ d_subject d = i /\ doc_content (d_content d) i = false;
  iv_kind_doc : forall i g, h_docs h !! i = Some g -> exists d, has_op h (MD d) /\ d_proof d = None /\ d_subject d = i /\ doc_content (d_content d) i = true
}.

Lemma from_sound (ops : list mop) i : (forall o, o ∈ ops -> from_events W o /\ op_subject o = i) -> sound ops.
Proof.
  intros H. split.
  - intros a b A B. apply (from_genuine W (tm_digests _ _ T)); apply H; assumption.
  - intros a b A B. apply (tm_grants _ _ T i); apply H; assumption.
Qed.
Lemma group_ops h i g : inv h -> has_group h i g -> exists ops, history order ops g /\ consistent order ops g /\ gr_id g = i /\ (forall o, o ∈ ops <-> has_op h o /\ op_subject o = i) /\
  exists d, has_op h (MD d) /\ d_subject d = i.
Proof.
  intros I G. destruct (iv_group h I i g G) as (Ei & ops & H & Hops). exists ops.
  assert (S : sound ops). { apply (from_sound ops i). intros o Ho. apply Hops in Ho as [Ho Eo]. split; [eapply sup_from, iv_sup; eauto|exact Eo]. }
  pose proof (history_consistent order O ops g H (proj1 S) (proj2 S)) as C. split; [exact H|]. split; [exact C|]. split; [exact Ei|]. split; [exact Hops|].
  destruct (map_choose (gr_dheads g) (cs_heads _ _ _ C)) as (s & d & Hd).
  assert (Hin : MD d ∈ ops). { apply (cs_known _ _ _ C). exists (MD d). split; [|apply rtc_refl]. cbn. rewrite (proj1 (cs_filed _ _ _ C) s d Hd). exact Hd. }
  apply Hops in Hin as [A B]. exists d. auto.
Qed.
Lemma group_owner h i g : inv h -> has_group h i g -> owner W i.
Proof. intros I G. destruct (group_ops h i g I G) as (ops & _ & _ & _ & _ & d & A & B). exists d. split; [|exact B]. eapply sup_from, iv_sup; eauto. Qed.
Lemma env_owner h i mems : inv h -> h_env h !! i = Some mems -> owner W i.
Proof.
  intros I E. unfold h_env in E. rewrite lookup_fmap in E. destruct ((h_docs h ∪ h_groups h) !! i) as [g|] eqn:X; [|discriminate].
  apply lookup_union_Some_raw in X as [X|[_ X]]; eapply (group_owner h i g I); [right|left]; exact X.
Qed.
Lemma known_reachable h i : inv h -> known_agent h i = true -> reachable W K i.
Proof.
  intros I. unfold known_agent. rewrite !orb_true_iff, !bool_decide_eq_true, Nat.eqb_eq. intros [[[->|[g Hg]]|[g Hg]]|Hi].
  - apply reach_known, (iv_active h I).
  - destruct (group_ops h i g I (or_intror Hg)) as (ops & _ & _ & _ & _ & d & A & <-). apply reach_group, (iv_sup h I), A.
  - destruct (group_ops h i g I (or_introl Hg)) as (ops & _ & _ & _ & _ & d & A & <-). apply reach_group, (iv_sup h I), A.
  - destruct (iv_people h I i Hi) as [X|(o & Wo & <-)]; [apply reach_known, X|apply reach_key, Wo].
Qed.
Lemma owner_not_indie h i : inv h -> owner W i -> ks_indies (h_keys h) !! i = None.
Proof.
  intros I Ow. destruct (ks_indies (h_keys h) !! i) eqn:E; [|reflexivity]. exfalso. destruct (tm_people _ _ T i Ow) as [A B].
  destruct (iv_people h I i) as [X|(o & Wo & E')]; [rewrite E; eauto|auto|]. exact (B o Wo E').
Qed.

(** *** What is looked up is supported *)
Lemma resolve_dlg_from h x d : inv h -> W (EDlg x) -> resolve_dlg h x = inr d ->
  exists p rs, d = dlg_of x p rs /\ d_sig <$> p = sd_proof x /\ r_sig <$> rs = sd_after x /\ (forall q, p = Some q -> has_op h (MD q)) /\
    (forall r, r ∈ rs -> has_op h (MR r)) /\ known_agent h (sd_delegate x) = true.
Proof.
  intros I Wx. unfold resolve_dlg. destruct (find_proof_dlg _ _) as [|p] eqn:Ep; [discriminate|]. destruct (known_agent h (sd_delegate x)) eqn:Ek; [|discriminate]. cbn [negb].
  destruct (find_revs _ _) as [|rs] eqn:Er; [discriminate|]. intros [= <-]. exists p, rs. apply find_proof_spec in Ep. apply find_revs_spec in Er.
  assert (P : d_sig <$> p = sd_proof x /\ forall q, p = Some q -> has_op h (MD q)).
  { destruct (sd_proof x) as [s|], p as [p|]; try tauto; cbn; [|split; [reflexivity|discriminate]].
    pose proof (iv_dlgs h I s p Ep) as E. split; [cbn; congruence|]. intros q [= <-]. rewrite E. exact Ep. }
  assert (R : r_sig <$> rs = sd_after x /\ forall r, r ∈ rs -> has_op h (MR r)).
  { clear P Ep. induction Er as [|s r l rs E F IH]; cbn; [split; [reflexivity|intros r Hr; inversion Hr]|]. pose proof (iv_revs h I s r E) as E'.
    destruct IH as [IH1 IH2]. split; [f_equal; [exact E'|exact IH1]|]. intros r' Hr. apply elem_of_cons in Hr as [->|Hr]; [|apply IH2, Hr]. cbn. rewrite E'. exact E. }
  destruct P, R. split; [reflexivity|]. auto 10.
Qed.
Lemma resolve_rev_from h x r : inv h -> W (ERev x) -> resolve_rev h x = inr r ->
  exists t p, r = rev_of x t p /\ d_sig t = sr_revoke x /\ d_sig <$> p = sr_proof x /\ has_op h (MD t) /\ (forall q, p = Some q -> has_op h (MD q)).
Proof.
  intros I Wx. unfold resolve_rev. destruct (h_dlgs h !! sr_revoke x) as [t|] eqn:Et; [|discriminate].
  destruct (find_proof_dlg _ _) as [|p] eqn:Ep; [discriminate|]. intros [= <-]. exists t, p. apply find_proof_spec in Ep. pose proof (iv_dlgs h I _ _ Et) as E.
  assert (P : d_sig <$> p = sr_proof x /\ forall q, p = Some q -> has_op h (MD q)).
  { destruct (sr_proof x) as [s|], p as [p|]; try tauto; cbn; [|split; [reflexivity|discriminate]].
    pose proof (iv_dlgs h I s p Ep) as E'. split; [cbn; congruence|]. intros q [= <-]. rewrite E'. exact Ep. }
  destruct P. repeat split; auto. cbn. rewrite E. exact Et.
Qed.
Lemma resolve_dlg_all (h : hive) x p rs : d_sig <$> p = sd_proof x -> r_sig <$> rs = sd_after x -> (forall q, p = Some q -> has_op h (MD q)) ->
  (forall r, r ∈ rs -> has_op h (MR r)) -> known_agent h (sd_delegate x) = true -> resolve_dlg h x = inr (dlg_of x p rs).
Proof.
  intros Ep Er Hp Hr Hk. unfold resolve_dlg. rewrite (proj2 (find_proof_spec (h_dlgs h) (sd_proof x) p)).
  - rewrite Hk. cbn. rewrite (find_revs_all _ _ rs); [reflexivity|]. rewrite <- Er. clear Er. induction rs as [|r rs IH]; cbn; constructor; [apply Hr; left|apply IH; intros; apply Hr; right; assumption].
  - rewrite <- Ep. destruct p as [p|]; cbn; [apply Hp; reflexivity|exact I].
Qed.
Lemma resolve_rev_all (h : hive) x t p : d_sig t = sr_revoke x -> d_sig <$> p = sr_proof x -> has_op h (MD t) -> (forall q, p = Some q -> has_op h (MD q)) ->
  resolve_rev h x = inr (rev_of x t p).
Proof.
  intros Et Ep Ht Hp. unfold resolve_rev. cbn in Ht. rewrite <- Et, Ht. rewrite (proj2 (find_proof_spec (h_dlgs h) (sr_proof x) p)); [reflexivity|].
  rewrite <- Ep. destruct p as [p|]; cbn; [apply Hp; reflexivity|exact I].
Qed.

(** *** The chain checks do not depend on the members of other groups *)
Lemma chain_step d p : from_events W (MD d) -> rests_on d p -> from_events W (MD p).
Proof. intros F R. apply (from_closed W (MD d)); [exact F|]. apply proof_parent, R. Qed.
Lemma link_ok h d p : inv h -> from_events W (MD d) -> rests_on d p -> d_issuer d <> d_delegate p -> h_env h !! d_delegate p = None.
Proof.
  intros I F R N. destruct (h_env h !! d_delegate p) as [m|] eqn:E; [|reflexivity]. exfalso. destruct (tm_chain _ _ T d p F R) as [X|X]; [auto|]. apply X. eapply env_owner; eauto.
Qed.
Lemma chain_spec h can d : inv h -> from_events W (MD d) ->
  (check_chain order (h_env h) can d (lineage d) = None <-> forall a p, in_chain d a -> rests_on a p -> rank can <= rank (d_can p) /\ d_issuer a = d_delegate p).
Proof.
  intros I. remember (d_size d) as n eqn:E. assert (L : d_size d <= n) by lia. clear E. revert d L. induction n as [|n IH]; intros d L F.
  { destruct d; cbn in L; lia. }
  destruct (d_proof d) as [p|] eqn:E.
  - rewrite (lineage_proof _ _ E). cbn. pose proof (chain_step d p F E) as Fp. assert (Lp : d_size p <= n). { destruct d as [s i t c pr af co]. cbn in E. subst pr. cbn in L. lia. }
    specialize (IH p Lp Fp). split.
    + intros C. destruct (ale can (d_can p)) eqn:A; [|discriminate]. cbn in C. destruct (Nat.eqb_spec (d_issuer d) (d_delegate p)) as [Q|Q]; cbn in C.
      * pose proof (proj1 IH C) as C'. clear C. rename C' into C. intros a q Ca R. inversion Ca as [|? y ? S1 S2]; subst.
        -- unfold rests_on in R. rewrite E in R. injection R as <-. split; [apply ale_rank, A|exact Q].
        -- unfold rests_on in S1. rewrite E in S1. injection S1 as <-. apply C; assumption.
      * exfalso. unfold is_transitive_member_of in C. rewrite (link_ok h d p I F E Q) in C. discriminate.
    + intros C. destruct (C d p (rtc_refl _ _) E) as [A Q]. rewrite (proj2 (ale_rank can (d_can p)) A), Q, Nat.eqb_refl. cbn. apply (proj2 IH).
      intros a q Ca R. apply C; [eapply rtc_l; [exact E|exact Ca]|exact R].
  - rewrite (lineage_none _ E). cbn. split; [|reflexivity]. intros _ a p Ca R. inversion Ca as [|? y ? S1 S2]; subst; unfold rests_on in *; congruence.
Qed.
Lemma chain_no_hang h gid can d : inv h -> from_events W (MD d) -> chain_hangs order (h_env h) gid can d (lineage d) = false.
Proof.
  intros I. remember (d_size d) as n eqn:E. assert (L : d_size d <= n) by lia. clear E. revert d L. induction n as [|n IH]; intros d L F.
  { destruct d; cbn in L; lia. }
  destruct (d_proof d) as [p|] eqn:E; [|rewrite (lineage_none _ E); reflexivity]. rewrite (lineage_proof _ _ E). cbn.
  assert (Lp : d_size p <= n). { destruct d as [s i t c pr af co]. cbn in E. subst pr. cbn in L. lia. }
  specialize (IH p Lp (chain_step d p F E)). destruct (negb _); [reflexivity|]. destruct (Nat.eqb_spec (d_issuer d) (d_delegate p)) as [Q|Q]; [exact IH|].
  unfold locks_group, is_transitive_member_of. rewrite (link_ok h d p I F E Q). reflexivity.
Qed.
Lemma chain_from t q : in_chain t q -> from_events W (MD t) -> from_events W (MD q).
Proof. intros C. induction C as [|a b c S R IH]; [auto|]. intros F. apply IH. eapply chain_step; eauto. Qed.
Lemma chain_descends t p : from_events W (MD t) -> from_events W (MD p) -> (dlg_eqb t p = true \/ is_descendant_of t p = true) <-> in_chain t p.
Proof.
  intros Ft Fp. rewrite in_chain_lineage, elem_of_cons. unfold is_descendant_of.
  assert (L : forall q, q ∈ lineage t -> from_events W (MD q)).
  { intros q Hq. apply (chain_from t); [|exact Ft]. apply in_chain_lineage; right; exact Hq. }
  pose proof (from_genuine W (tm_digests _ _ T)) as U. split.
  - intros [H|H]; [left; symmetry; eapply dlg_eqb_eq; eauto|]. right. apply List.existsb_exists in H as (q & Hq & E). apply elem_of_list_In in Hq. rewrite <- (dlg_eqb_eq _ _ _ U (L q Hq) Fp E). exact Hq.
  - intros [->|H]; [left; unfold dlg_eqb; rewrite !Nat.eqb_refl; reflexivity|]. right. apply List.existsb_exists. exists p. split; [apply elem_of_list_In, H|]. unfold dlg_eqb. rewrite !Nat.eqb_refl. reflexivity.
Qed.

(** *** Adding an operation to its group *)
Lemma known_agent_spec (h : hive) i : known_agent h i = true <->
  i = ks_active (h_keys h) \/ is_Some (h_docs h !! i) \/ is_Some (h_groups h !! i) \/ is_Some (ks_indies (h_keys h) !! i).
Proof. unfold known_agent. rewrite !orb_true_iff, !bool_decide_eq_true, Nat.eqb_eq. tauto. Qed.
Record placed (h h' : hive) (o : mop) (i : ident) (g' : group) : Prop := {
  pl_ops : forall o', has_op h' o' <-> has_op h o' \/ o' = o;
  pl_dlgs : forall s d, h_dlgs h' !! s = Some d -> d_sig d = s;
  pl_revs : forall s r, h_revs h' !! s = Some r -> r_sig r = s;
  pl_groups : forall j, j <> i -> h_groups h' !! j = h_groups h !! j;
  pl_docs : forall j, j <> i -> h_docs h' !! j = h_docs h !! j;
  pl_one : (h_groups h' !! i = Some g' /\ h_docs h' !! i = None) \/ (h_docs h' !! i = Some g' /\ h_groups h' !! i = None);
  pl_indies : ks_indies (h_keys h') = ks_indies (h_keys h);
  pl_active : ks_active (h_keys h') = ks_active (h_keys h);
  pl_public : ks_public (h_keys h') = ks_public (h_keys h);
  pl_kdocs : dom (ks_docs (h_keys h')) = dom (h_docs h');
  pl_kgroups : dom (ks_groups (h_keys h')) = dom (h_groups h');
  pl_kind_group : is_Some (h_groups h' !! i) -> exists d, has_op h' (MD d) /\ d_proof d = None /\ d_subject d = i /\ doc_content (d_content d) i = false;
  pl_kind_doc : is_Some (h_docs h' !! i) -> exists d, has_op h' (MD d) /\ d_proof d = None /\ d_subject d = i /\ doc_content (d_content d) i = true
}.
Lemma placed_known h h' o i g' j : placed h h' o i g' -> known_agent h j = true -> known_agent h' j = true.
Proof.
  intros P. rewrite !known_agent_spec, (pl_active _ _ _ _ _ P), (pl_indies _ _ _ _ _ P). destruct (decide (j = i)) as [->|N].
  - intros _. destruct (pl_one _ _ _ _ _ P) as [[A _]|[A _]]; rewrite A; eauto.
  - rewrite (pl_groups _ _ _ _ _ P j N), (pl_docs _ _ _ _ _ P j N). tauto.
Qed.
Lemma placed_inv h h' o i g' ops : inv h -> placed h h' o i g' -> supported W K o -> op_subject o = i -> gr_id g' = i ->
  history order ops g' -> (forall o', o' ∈ ops <-> has_op h' o' /\ op_subject o' = i) -> inv h'.
Proof.
  intros I P S Ei Eg H Hops.
  assert (G : forall j g, j <> i -> has_group h' j g <-> has_group h j g).
  { intros j g N. unfold has_group. rewrite (pl_groups _ _ _ _ _ P j N), (pl_docs _ _ _ _ _ P j N). tauto. }
  assert (Gi : forall g, has_group h' i g <-> g = g').
  { intros g. unfold has_group. destruct (pl_one _ _ _ _ _ P) as [[A B]|[A B]]; rewrite A, B; split; [intros [X|X]; congruence|intros ->; auto|intros [X|X]; congruence|intros ->; auto]. }
  split.
  - exact (pl_dlgs _ _ _ _ _ P).
  - exact (pl_revs _ _ _ _ _ P).
  - intros o' Ho. apply (pl_ops _ _ _ _ _ P) in Ho as [Ho| ->]; [apply (iv_sup h I), Ho|exact S].
  - intros j g Hg. destruct (decide (j = i)) as [->|N].
    + apply Gi in Hg as ->. split; [exact Eg|]. exists ops. auto.
    + apply G in Hg; [|exact N]. destruct (iv_group h I j g Hg) as (A & l & B & C). split; [exact A|]. exists l. split; [exact B|]. intros o'. rewrite C, (pl_ops _ _ _ _ _ P).
      split; [tauto|]. intros [[X| ->] Y]; [auto|]. congruence.
  - intros o' Ho. apply (pl_ops _ _ _ _ _ P) in Ho as [Ho| ->].
    + destruct (iv_subject h I o' Ho) as (g & Hg). destruct (decide (op_subject o' = i)) as [->|N]; [exists g'; apply Gi; reflexivity|exists g; apply G; assumption].
    + rewrite Ei. exists g'. apply Gi. reflexivity.
  - intros j. destruct (decide (j = i)) as [->|N].
    + destruct (pl_one _ _ _ _ _ P) as [[A B]|[A B]]; rewrite A, B; intros [] []; discriminate.
    + rewrite (pl_groups _ _ _ _ _ P j N), (pl_docs _ _ _ _ _ P j N). apply (iv_once h I).
  - rewrite (pl_indies _ _ _ _ _ P). apply (iv_people h I).
  - rewrite (pl_active _ _ _ _ _ P). apply (iv_active h I).
  - intros j Kj. eapply placed_known; [exact P|]. apply (iv_known h I), Kj.
  - exact (pl_kdocs _ _ _ _ _ P).
  - exact (pl_kgroups _ _ _ _ _ P).
  - rewrite (pl_indies _ _ _ _ _ P), (pl_public _ _ _ _ _ P). apply (iv_public h I).
  - intros j g Hg. destruct (decide (j = i)) as [->|N]; [apply (pl_kind_group _ _ _ _ _ P); eauto|]. rewrite (pl_groups _ _ _ _ _ P j N) in Hg.
    destruct (iv_kind_group h I j g Hg) as (d & A & B). exists d. split; [apply (pl_ops _ _ _ _ _ P); auto|exact B].
  - intros j g Hg. destruct (decide (j = i)) as [->|N]; [apply (pl_kind_doc _ _ _ _ _ P); eauto|]. rewrite (pl_docs _ _ _ _ _ P j N) in Hg.
    destruct (iv_kind_doc h I j g Hg) as (d & A & B). exists d. split; [apply (pl_ops _ _ _ _ _ P); auto|exact B].
Qed.
Lemma put_dlg_ops (h : hive) d : h_dlgs h !! d_sig d = None -> forall o', has_op (put_dlg h d) o' <-> has_op h o' \/ o' = MD d.
Proof.
  intros N [e|r]; cbn; [|split; [auto|intros [X|X]; [exact X|discriminate]]]. destruct (decide (d_sig e = d_sig d)) as [E|E].
  - rewrite E, lookup_insert. split; [intros [= ->]; auto|]. intros [X|X]; congruence.
  - rewrite lookup_insert_ne by congruence. split; [auto|]. intros [X|X]; congruence.
Qed.
Lemma put_rev_ops (h : hive) r : h_revs h !! r_sig r = None -> forall o', has_op (put_rev h r) o' <-> has_op h o' \/ o' = MR r.
Proof.
  intros N [e|e]; cbn; [split; [auto|intros [X|X]; [exact X|discriminate]]|]. destruct (decide (r_sig e = r_sig r)) as [E|E].
  - rewrite E, lookup_insert. split; [intros [= ->]; auto|]. intros [X|X]; congruence.
  - rewrite lookup_insert_ne by congruence. split; [auto|]. intros [X|X]; congruence.
Qed.
Lemma is_some_dom {A} (m : gmap ident A) i x : is_Some (m !! i) -> dom (<[i := x]> m) = dom m.
Proof. intros H. rewrite dom_insert_L. apply elem_of_dom in H. set_solver. Qed.
Lemma placed_dlg_group h i g g' d : inv h -> h_groups h !! i = Some g -> h_dlgs h !! d_sig d = None -> placed h (put_dlg (put_group h i g') d) (MD d) i g'.
Proof.
  intros I Hg N. assert (Ho : forall o', has_op (put_dlg (put_group h i g') d) o' <-> has_op h o' \/ o' = MD d) by exact (put_dlg_ops (put_group h i g') d N). split; auto; cbn.
  - intros s e. rewrite lookup_insert_Some. intros [[<- <-]|[_ X]]; [reflexivity|apply (iv_dlgs h I s e X)].
  - exact (iv_revs h I).
  - intros j Nj. apply lookup_insert_ne. congruence.
  - left. rewrite lookup_insert. split; [reflexivity|]. apply eq_None_not_Some. intros X. apply (iv_once h I i); eauto.
  - apply (iv_docs h I).
  - rewrite (is_some_dom (h_groups h)) by eauto. apply (iv_groups h I).
  - intros _. destruct (iv_kind_group h I i g Hg) as (e & A & B). exists e. split; [exact (proj2 (Ho (MD e)) (or_introl A))|exact B].
  - intros [g0 X]. exfalso. apply (iv_once h I i); eauto.
Qed.
Lemma placed_dlg_doc h i g g' d : inv h -> h_docs h !! i = Some g -> h_dlgs h !! d_sig d = None -> placed h (put_dlg (put_doc h i g') d) (MD d) i g'.
Proof.
  intros I Hg N. assert (Ho : forall o', has_op (put_dlg (put_doc h i g') d) o' <-> has_op h o' \/ o' = MD d) by exact (put_dlg_ops (put_doc h i g') d N). split; auto; cbn.
  - intros s e. rewrite lookup_insert_Some. intros [[<- <-]|[_ X]]; [reflexivity|apply (iv_dlgs h I s e X)].
  - exact (iv_revs h I).
  - intros j Nj. apply lookup_insert_ne. congruence.
  - right. rewrite lookup_insert. split; [reflexivity|]. apply eq_None_not_Some. intros X. apply (iv_once h I i); eauto.
  - rewrite (is_some_dom (h_docs h)) by eauto. apply (iv_docs h I).
  - apply (iv_groups h I).
  - intros [g0 X]. exfalso. apply (iv_once h I i); eauto.
  - intros _. destruct (iv_kind_doc h I i g Hg) as (e & A & B). exists e. split; [exact (proj2 (Ho (MD e)) (or_introl A))|exact B].
Qed.
Lemma placed_rev_group h i g g' r : inv h -> h_groups h !! i = Some g -> h_revs h !! r_sig r = None -> placed h (put_rev (put_group h i g') r) (MR r) i g'.
Proof.
  intros I Hg N. assert (Ho : forall o', has_op (put_rev (put_group h i g') r) o' <-> has_op h o' \/ o' = MR r) by exact (put_rev_ops (put_group h i g') r N). split; auto; cbn.
  - exact (iv_dlgs h I).
  - intros s e. rewrite lookup_insert_Some. intros [[<- <-]|[_ X]]; [reflexivity|apply (iv_revs h I s e X)].
  - intros j Nj. apply lookup_insert_ne. congruence.
  - left. rewrite lookup_insert. split; [reflexivity|]. apply eq_None_not_Some. intros X. apply (iv_once h I i); eauto.
  - apply (iv_docs h I).
  - rewrite (is_some_dom (h_groups h)) by eauto. apply (iv_groups h I).
  - intros _. destruct (iv_kind_group h I i g Hg) as (e & A & B). exists e. split; [exact (proj2 (Ho (MD e)) (or_introl A))|exact B].
  - intros [g0 X]. exfalso. apply (iv_once h I i); eauto.
Qed.
Lemma placed_rev_doc h i g g' r : inv h -> h_docs h !! i = Some g -> h_revs h !! r_sig r = None -> placed h (put_rev (put_doc h i g') r) (MR r) i g'.
Proof.
  intros I Hg N. assert (Ho : forall o', has_op (put_rev (put_doc h i g') r) o' <-> has_op h o' \/ o' = MR r) by exact (put_rev_ops (put_doc h i g') r N). split; auto; cbn.
  - exact (iv_dlgs h I).
  - intros s e. rewrite lookup_insert_Some. intros [[<- <-]|[_ X]]; [reflexivity|apply (iv_revs h I s e X)].
  - intros j Nj. apply lookup_insert_ne. congruence.
  - right. rewrite lookup_insert. split; [reflexivity|]. apply eq_None_not_Some. intros X. apply (iv_once h I i); eauto.
  - rewrite (is_some_dom (h_docs h)) by eauto. apply (iv_docs h I).
  - apply (iv_groups h I).
  - intros [g0 X]. exfalso. apply (iv_once h I i); eauto.
  - intros _. destruct (iv_kind_doc h I i g Hg) as (e & A & B). exists e. split; [exact (proj2 (Ho (MD e)) (or_introl A))|exact B].
Qed.

(** *** One event *)
(** The event can be taken now: everything it refers to is there, and it is valid. *)
Definition acceptable (h : hive) (x : sevent cop) : Prop :=
  match x with
  | EDlg x => sd_ok x = true /\ exists d, resolve_dlg h x = inr d /\ good_delegation d
  | ERev x => sr_ok x = true /\ exists r, resolve_rev h x = inr r /\ good_revocation r
  | _ => False
  end.
(** The client has the operation with the digest of the event. *)
Definition taken (h : hive) (x : sevent cop) : Prop :=
  match x with
  | EDlg x => is_Some (h_dlgs h !! sd_sig x)
  | ERev x => is_Some (h_revs h !! sr_sig x)
  | _ => True
  end.
Record grows (h h' : hive) : Prop := {
  gw_ops : forall o, has_op h o -> has_op h' o;
  gw_known : forall i, known_agent h i = true -> known_agent h' i = true;
  gw_pending : h_pending h' = h_pending h
}.
Lemma grows_refl h : grows h h.
Proof. split; auto. Qed.
Lemma grows_trans a b c : grows a b -> grows b c -> grows a c.
Proof. intros A B. split; [intros o Ho; apply (gw_ops _ _ B), (gw_ops _ _ A), Ho|intros i Hi; apply (gw_known _ _ B), (gw_known _ _ A), Hi|rewrite (gw_pending _ _ B); apply (gw_pending _ _ A)]. Qed.
Lemma placed_grows h h' o i g' : placed h h' o i g' -> h_pending h' = h_pending h -> grows h h'.
Proof. intros P E. split; [intros o' Ho; apply (pl_ops _ _ _ _ _ P); auto|intros j Hj; eapply placed_known; eauto|exact E]. Qed.
Lemma taken_grows h h' x : inv h -> grows h h' -> taken h x -> taken h' x.
Proof.
  intros I G. destruct x as [o|c|x|x]; cbn; auto.
  - intros [d Hd]. pose proof (iv_dlgs h I _ _ Hd) as E. exists d. rewrite <- E in Hd |- *. apply (gw_ops _ _ G (MD d)), Hd.
  - intros [d Hd]. pose proof (iv_revs h I _ _ Hd) as E. exists d. rewrite <- E in Hd |- *. apply (gw_ops _ _ G (MR d)), Hd.
Qed.
Inductive stepped (h : hive) (x : sevent cop) (h' : hive) : houtcome -> Prop :=
| st_done : inv h' -> grows h h' -> taken h' x -> stepped h x h' HDone
| st_fail e : (forall k, e <> HPrekey k) -> h' = h -> ~ taken h x -> ~ acceptable h x -> stepped h x h' (HFail e).

Lemma resolved_supported h x d : inv h -> W (EDlg x) -> sd_ok x = true -> resolve_dlg h x = inr d -> good_delegation d -> supported W K (MD d).
Proof.
  intros I Wx Ok R G. destruct (resolve_dlg_from h x d I Wx R) as (p & rs & -> & Ep & Er & Hp & Hr & Hk). apply sup_dlg; auto.
  - intros q Eq. apply (iv_sup h I), Hp, Eq.
  - intros r Hin. apply (iv_sup h I), Hr, Hin.
  - eapply known_reachable; eauto.
Qed.
Lemma resolved_from h x d : inv h -> W (EDlg x) -> resolve_dlg h x = inr d -> from_events W (MD d) /\ d_sig d = sd_sig x /\ d_content d = sd_content x /\ forall o, o ∈ parents (MD d) -> has_op h o.
Proof.
  intros I Wx R. destruct (resolve_dlg_from h x d I Wx R) as (p & rs & -> & Ep & Er & Hp & Hr & Hk). split; [|split; [reflexivity|split; [reflexivity|]]].
  - apply from_dlg; auto; intros; eapply sup_from, (iv_sup h I); auto.
  - intros o Ho. cbn in Ho. apply elem_of_app in Ho as [Ho|Ho].
    + destruct p as [p|]; cbn in Ho; [|inversion Ho]. apply elem_of_list_singleton in Ho as ->. auto.
    + apply elem_of_list_fmap in Ho as (r & -> & Hin). auto.
Qed.
Lemma parent_subject d o : from_events W (MD d) -> o ∈ parents (MD d) -> op_subject o = d_subject d.
Proof.
  intros F Ho. cbn in Ho. apply elem_of_app in Ho as [Ho|Ho].
  - destruct d as [s i t c [p|] af co]; cbn in Ho; [|inversion Ho]. apply elem_of_list_singleton in Ho as ->. reflexivity.
  - apply elem_of_list_fmap in Ho as (r & -> & Hin). apply (tm_after _ _ T d r F Hin).
Qed.
(** Delegations to a group that is there. *)
Lemma group_dlg h i g x d : inv h -> W (EDlg x) -> sd_ok x = true -> resolve_dlg h x = inr d -> d_subject d = i -> has_group h i g ->
  delegation_hangs order (h_env h) g d = false /\
  match receive_delegation order (h_env h) g d with
  | GErr e => ~ good_delegation d
  | GOk g' => good_delegation d /\ gr_id g' = i /\ exists ops, history order (MD d :: ops) g' /\ forall o, o ∈ ops <-> has_op h o /\ op_subject o = i
  end.
Proof.
  intros I Wx Ok R Es G. destruct (resolved_from h x d I Wx R) as (F & Esig & Econt & Hpar). destruct (group_ops h i g I G) as (ops & H & C & Eg & Hops & _).
  split. { unfold delegation_hangs. rewrite (chain_no_hang h) by assumption. apply andb_false_r. }
  assert (Hp : forall o, o ∈ parents (MD d) -> o ∈ ops). { intros o Ho. apply Hops. split; [apply Hpar, Ho|]. rewrite <- Es. apply (parent_subject d); assumption. }
  assert (S : sound (MD d :: ops)). { apply (from_sound _ i). intros o Ho. apply elem_of_cons in Ho as [->|Ho]; [split; [exact F|exact Es]|]. apply Hops in Ho as [Ho Eo]. split; [eapply sup_from, (iv_sup h I), Ho|exact Eo]. }
  pose proof (chain_spec h (d_can d) d I F) as CS. destruct (receive_delegation order (h_env h) g d) as [g'|e] eqn:E.
  - destruct (accepted_delegation _ _ _ _ _ E) as (_ & _ & A & B). split; [exact (proj1 CS A)|]. split; [destruct (rebuild_keeps _ _ _ B) as [-> _]; exact Eg|].
    exists ops. split; [|exact Hops]. eapply h_delegation; [exact H|exact Hp|exact E].
  - intros Gd. destruct (receive_delegation_ok order (h_env h) ops g d O H S Hp) as (g' & X); [|congruence].
    unfold add_delegation. rewrite Es, Eg, Nat.eqb_refl. cbn [negb]. rewrite (proj2 CS Gd).
    destruct d as [s j t c [p|] af co]; cbn in Es |- *; [eauto|]. rewrite Es, Nat.eqb_refl. cbn. eauto.
Qed.
Lemma receive_dlg_step h x h' out : inv h -> W (EDlg x) -> receive_dlg order doc_content h x = (h', out) -> stepped h (EDlg x) h' out.
Proof.
  intros I Wx. unfold receive_dlg. destruct (bool_decide _) eqn:B.
  { intros [= <- <-]. apply bool_decide_eq_true in B. apply st_done; [exact I|apply grows_refl|exact B]. }
  apply bool_decide_eq_false in B. destruct (sd_ok x) eqn:Ok; cbn [negb].
  2: { intros [= <- <-]. apply st_fail; [intros ?; discriminate|reflexivity|exact B|]. cbn. intros [X _]. congruence. }
  destruct (resolve_dlg h x) as [er|d] eqn:R.
  { intros [= <- <-]. apply st_fail; [|reflexivity|exact B|cbn; intros (_ & d & X & _); congruence]. intros k ->. unfold resolve_dlg in R.
    destruct (find_proof_dlg _ _); [discriminate|]. destruct (negb _); [discriminate|]. destruct (find_revs _ _); discriminate. }
  destruct (resolved_from h x d I Wx R) as (F & Esig & Econt & Hpar). assert (Nd : h_dlgs h !! d_sig d = None). { rewrite Esig. apply eq_None_not_Some, B. }
  destruct (h_groups h !! d_subject d) as [g|] eqn:Eg.
  - destruct (group_dlg h (d_subject d) g x d I Wx Ok R eq_refl (or_introl Eg)) as [-> X]. destruct (receive_delegation order (h_env h) g d) as [g'|e]; intros [= <- <-].
    + destruct X as (Gd & Ei & ops & Hh & Hops). pose proof (placed_dlg_group h (d_subject d) g g' d I Eg Nd) as P. apply st_done.
      * eapply placed_inv; [exact I|exact P|eapply resolved_supported; eauto|reflexivity|exact Ei|exact Hh|].
        intros o'. rewrite elem_of_cons, Hops, (pl_ops _ _ _ _ _ P). split; [intros [->|[A A']]; auto|]. intros [[A| ->] A']; auto.
      * eapply placed_grows; [exact P|reflexivity].
      * cbn. rewrite Esig, lookup_insert. eauto.
    + apply st_fail; [intros ?; discriminate|reflexivity|exact B|]. cbn. intros (_ & d' & R' & Gd). rewrite R in R'. injection R' as <-. auto.
  - destruct (h_docs h !! d_subject d) as [g|] eqn:Ed.
    + destruct (group_dlg h (d_subject d) g x d I Wx Ok R eq_refl (or_intror Ed)) as [-> X]. destruct (receive_delegation order (h_env h) g d) as [g'|e]; intros [= <- <-].
      * destruct X as (Gd & Ei & ops & Hh & Hops). pose proof (placed_dlg_doc h (d_subject d) g g' d I Ed Nd) as P. apply st_done.
        -- eapply placed_inv; [exact I|exact P|eapply resolved_supported; eauto|reflexivity|exact Ei|exact Hh|].
           intros o'. rewrite elem_of_cons, Hops, (pl_ops _ _ _ _ _ P). split; [intros [->|[A A']]; auto|]. intros [[A| ->] A']; auto.
        -- eapply placed_grows; [exact P|reflexivity].
        -- cbn. rewrite Esig, lookup_insert. eauto.
      * apply st_fail; [intros ?; discriminate|reflexivity|exact B|]. cbn. intros (_ & d' & R' & Gd). rewrite R in R'. injection R' as <-. auto.
    + rewrite (owner_not_indie h (d_subject d) I) by (exists d; auto).
      assert (NoG : forall o, o ∈ parents (MD d) -> False).
      { intros o Ho. destruct (iv_subject h I o (Hpar o Ho)) as (g & [G|G]); rewrite (parent_subject d o F Ho) in G; congruence. }
      assert (Ep : d_proof d = None). { destruct (d_proof d) as [p|] eqn:E; [|reflexivity]. exfalso. apply (NoG (MD p)). apply proof_parent, E. }
      assert (Ea : d_after d = []). { destruct (d_after d) as [|r l] eqn:E; [reflexivity|]. exfalso. apply (NoG (MR r)). cbn. rewrite E. apply elem_of_app. right. left. }
      assert (Ei : d_issuer d = d_subject d). { destruct d as [s j t c pr af co]. cbn in Ep. subst pr. reflexivity. }
      assert (Hn : exists g, new_group order d = Some g).
      { unfold new_group. apply (rebuilds order [MD d]); [exact O| | |].
        - split; cbn; intros s e; [rewrite lookup_singleton_Some; intros [<- <-]; reflexivity|rewrite lookup_empty; discriminate].
        - intros o (hd & Hh & Rt). destruct hd as [e|e]; cbn in Hh; [|rewrite lookup_empty in Hh; discriminate]. apply lookup_singleton_Some in Hh as [_ <-].
          inversion Rt as [|? y ? S1 S2]; subst; [left|]. exfalso. exact (NoG y S1).
        - intros a b A A'. apply elem_of_list_singleton in A, A'. congruence. }
      destruct Hn as (g & Hn). rewrite Hn. assert (Gi : gr_id g = d_subject d) by (destruct (rebuild_keeps _ _ _ Hn) as [-> _]; exact Ei).
      assert (Hh : history order [MD d] g) by (apply h_new; auto).
      assert (Gd : good_delegation d). { intros a p Ca Rp. inversion Ca as [|? y ? S1 S2]; subst; unfold rests_on in *; congruence. }
      assert (Sup : supported W K (MD d)) by (eapply resolved_supported; eauto).
      assert (None1 : forall o, has_op h o -> op_subject o = d_subject d -> False). { intros o Ho Eo. destruct (iv_subject h I o Ho) as (g0 & [G|G]); rewrite Eo in G; congruence. }
      assert (Fin : forall h2 : hive, placed h h2 (MD d) (d_subject d) g -> h_pending h2 = h_pending h -> is_Some (h_dlgs h2 !! sd_sig x) -> stepped h (EDlg x) h2 HDone).
      { intros h2 P Pe Tk. apply st_done; [|eapply placed_grows; eauto|exact Tk]. eapply placed_inv; [exact I|exact P|exact Sup|reflexivity|exact Gi|exact Hh|].
        intros o'. rewrite elem_of_list_singleton, (pl_ops _ _ _ _ _ P). split; [intros ->; auto|]. intros [[A| ->] A']; [exfalso; eauto|reflexivity]. }
      assert (Ho : forall o', has_op (put_dlg h d) o' <-> has_op h o' \/ o' = MD d) by exact (put_dlg_ops h d Nd).
      intros E. injection E as <- <-. rewrite Gi, <- Econt. destruct (doc_content (d_content d) (d_subject d)) eqn:Dk; apply Fin; try reflexivity; try (cbn; rewrite Esig, lookup_insert; eauto; fail).
      * split; auto; cbn.
        -- intros s e. rewrite lookup_insert_Some. intros [[<- <-]|[_ X]]; [reflexivity|apply (iv_dlgs h I s e X)].
        -- exact (iv_revs h I).
        -- intros j Nj. apply lookup_insert_ne. congruence.
        -- right. rewrite lookup_insert. auto.
        -- rewrite !dom_insert_L, (iv_docs h I). reflexivity.
        -- apply (iv_groups h I).
        -- rewrite Eg. intros []; discriminate.
        -- intros _. exists d. split; [exact (proj2 (Ho (MD d)) (or_intror eq_refl))|]. auto.
      * split; auto; cbn.
        -- intros s e. rewrite lookup_insert_Some. intros [[<- <-]|[_ X]]; [reflexivity|apply (iv_dlgs h I s e X)].
        -- exact (iv_revs h I).
        -- intros j Nj. apply lookup_insert_ne. congruence.
        -- left. rewrite lookup_insert. auto.
        -- apply (iv_docs h I).
        -- rewrite !dom_insert_L, (iv_groups h I). reflexivity.
        -- intros _. exists d. split; [exact (proj2 (Ho (MD d)) (or_intror eq_refl))|]. auto.
        -- rewrite Ed. intros []; discriminate.
Qed.

Lemma resolved_rev_from h x r : inv h -> W (ERev x) -> resolve_rev h x = inr r ->
  from_events W (MR r) /\ r_sig r = sr_sig x /\ (forall o, o ∈ parents (MR r) -> has_op h o) /\
  (sr_ok x = true -> good_revocation r -> supported W K (MR r)).
Proof.
  intros I Wx R. destruct (resolve_rev_from h x r I Wx R) as (t & p & -> & Et & Ep & Ht & Hp). split; [|split; [reflexivity|split]].
  - apply from_rev; auto; intros; eapply sup_from, (iv_sup h I); auto.
  - intros o Ho. cbn in Ho. apply elem_of_cons in Ho as [->|Ho]; [exact Ht|]. destruct p as [p|]; cbn in Ho; [|inversion Ho]. apply elem_of_list_singleton in Ho as ->. auto.
  - intros Ok G. apply sup_rev; auto; intros; apply (iv_sup h I); auto.
Qed.
Lemma parent_subject_rev r o : from_events W (MR r) -> o ∈ parents (MR r) -> op_subject o = r_subject r.
Proof.
  intros F Ho. cbn in Ho. apply elem_of_cons in Ho as [->|Ho]; [reflexivity|]. destruct (r_proof r) as [p|] eqn:E; cbn in Ho; [|inversion Ho].
  apply elem_of_list_singleton in Ho as ->. apply (tm_proof _ _ T r p F E).
Qed.
Lemma group_rev h i g x r : inv h -> W (ERev x) -> sr_ok x = true -> resolve_rev h x = inr r -> r_subject r = i -> has_group h i g ->
  revocation_hangs order (h_env h) g r = false /\
  match receive_revocation order (h_env h) g r with
  | GErr e => ~ good_revocation r
  | GOk g' => good_revocation r /\ gr_id g' = i /\ exists ops, history order (MR r :: ops) g' /\ forall o, o ∈ ops <-> has_op h o /\ op_subject o = i
  end.
Proof.
  intros I Wx Ok R Es G. destruct (resolved_rev_from h x r I Wx R) as (F & Esig & Hpar & _). destruct (group_ops h i g I G) as (ops & H & C & Eg & Hops & _).
  assert (Hp : forall o, o ∈ parents (MR r) -> o ∈ ops). { intros o Ho. apply Hops. split; [apply Hpar, Ho|]. rewrite <- Es. apply (parent_subject_rev r); assumption. }
  assert (S : sound (MR r :: ops)). { apply (from_sound _ i). intros o Ho. apply elem_of_cons in Ho as [->|Ho]; [split; [exact F|exact Es]|]. apply Hops in Ho as [Ho Eo]. split; [eapply sup_from, (iv_sup h I), Ho|exact Eo]. }
  assert (Ft : from_events W (MD (r_revoke r))). { apply (from_closed W (MR r)); [exact F|]. left. }
  assert (Fp : forall p, r_proof r = Some p -> from_events W (MD p)). { intros p E. apply (from_closed W (MR r)); [exact F|]. cbn. rewrite E. right. left. }
  assert (NT : forall p, r_proof r = Some p -> ~ in_chain (r_revoke r) p -> h_env h !! d_delegate p = None).
  { intros p E N. destruct (h_env h !! d_delegate p) as [m|] eqn:X; [|reflexivity]. exfalso. destruct (tm_authority _ _ T r p F E) as [Y|Y]; [auto|]. apply Y. eapply env_owner; eauto. }
  split.
  - unfold revocation_hangs. destruct (r_proof r) as [p|] eqn:E; [|apply andb_false_r]. rewrite (chain_no_hang h) by auto.
    destruct (dlg_eqb (r_revoke r) p || is_descendant_of (r_revoke r) p) eqn:Q; [apply andb_false_r|].
    assert (N : ~ in_chain (r_revoke r) p). { intros X. apply (chain_descends (r_revoke r) p) in X; auto. apply orb_true_iff in X. congruence. }
    unfold locks_group. rewrite (NT p eq_refl N). destruct (is_transitive_member_of _ _ _ _ _); apply andb_false_r.
  - destruct (receive_revocation order (h_env h) g r) as [g'|e] eqn:E.
    + destruct (accepted_revocation _ _ _ _ _ E) as (_ & A & B). split; [|split; [destruct (rebuild_keeps _ _ _ B) as [-> _]; exact Eg|]].
      2: { exists ops. split; [|exact Hops]. eapply h_revocation; [exact H|exact Hp|exact E]. }
      unfold good_revocation. destruct (r_proof r) as [p|] eqn:Ep; [|congruence]. destruct A as [A Ch]. split; [|exact (proj1 (chain_spec h (d_can p) p I (Fp p eq_refl)) Ch)].
      destruct A as [A|[A|A]]; [apply chain_descends; auto|apply chain_descends; auto|].
      destruct (dlg_eqb (r_revoke r) p || is_descendant_of (r_revoke r) p) eqn:Q; [apply orb_true_iff in Q; apply chain_descends; auto|]. exfalso.
      assert (N : ~ in_chain (r_revoke r) p). { intros X. apply (chain_descends (r_revoke r) p) in X; auto. apply orb_true_iff in X. congruence. }
      unfold is_transitive_member_of in A. rewrite (NT p eq_refl N) in A. discriminate.
    + intros Gd. destruct (receive_revocation_ok order (h_env h) ops g r O H S Hp) as (g' & X); [|congruence].
      unfold add_revocation. rewrite Es, Eg, Nat.eqb_refl. cbn [negb]. unfold good_revocation in Gd. destruct (r_proof r) as [p|] eqn:Ep.
      * destruct Gd as [A B]. apply (chain_descends (r_revoke r) p) in A; auto. rewrite (proj2 (chain_spec h (d_can p) p I (Fp p eq_refl)) B).
        destruct A as [A|A]; rewrite A; cbn [negb andb]; [eauto|]. rewrite andb_false_r. cbn. eauto.
      * rewrite Gd, Es, Nat.eqb_refl. eauto.
Qed.
Lemma receive_rev_step h x h' out : inv h -> W (ERev x) -> receive_rev order h x = (h', out) -> stepped h (ERev x) h' out.
Proof.
  intros I Wx. unfold receive_rev. destruct (bool_decide _) eqn:B.
  { intros [= <- <-]. apply bool_decide_eq_true in B. apply st_done; [exact I|apply grows_refl|exact B]. }
  apply bool_decide_eq_false in B. destruct (sr_ok x) eqn:Ok; cbn [negb].
  2: { intros [= <- <-]. apply st_fail; [intros ?; discriminate|reflexivity|exact B|]. cbn. intros [X _]. congruence. }
  destruct (resolve_rev h x) as [er|r] eqn:R.
  { intros [= <- <-]. apply st_fail; [|reflexivity|exact B|cbn; intros (_ & d & X & _); congruence]. intros k ->. unfold resolve_rev in R.
    destruct (h_dlgs h !! sr_revoke x); [|discriminate]. destruct (find_proof_dlg _ _); discriminate. }
  destruct (resolved_rev_from h x r I Wx R) as (F & Esig & Hpar & Sup). assert (Nr : h_revs h !! r_sig r = None). { rewrite Esig. apply eq_None_not_Some, B. }
  destruct (iv_subject h I (MD (r_revoke r)) (Hpar _ ltac:(left))) as (g0 & G0). cbn [op_subject] in G0. change (d_subject (r_revoke r)) with (r_subject r) in G0.
  destruct (h_groups h !! r_subject r) as [g|] eqn:Eg.
  - destruct (group_rev h (r_subject r) g x r I Wx Ok R eq_refl (or_introl Eg)) as [-> X]. destruct (receive_revocation order (h_env h) g r) as [g'|e]; intros [= <- <-].
    + destruct X as (Gd & Ei & ops & Hh & Hops). pose proof (placed_rev_group h (r_subject r) g g' r I Eg Nr) as P. apply st_done.
      * eapply placed_inv; [exact I|exact P|apply Sup; auto|reflexivity|exact Ei|exact Hh|].
        intros o'. rewrite elem_of_cons, Hops, (pl_ops _ _ _ _ _ P). split; [intros [->|[A A']]; auto|]. intros [[A| ->] A']; auto.
      * eapply placed_grows; [exact P|reflexivity].
      * cbn. rewrite Esig, lookup_insert. eauto.
    + apply st_fail; [intros ?; discriminate|reflexivity|exact B|]. cbn. intros (_ & d' & R' & Gd). rewrite R in R'. injection R' as <-. auto.
  - destruct (h_docs h !! r_subject r) as [g|] eqn:Ed.
    + destruct (group_rev h (r_subject r) g x r I Wx Ok R eq_refl (or_intror Ed)) as [-> X]. destruct (receive_revocation order (h_env h) g r) as [g'|e]; intros [= <- <-].
      * destruct X as (Gd & Ei & ops & Hh & Hops). pose proof (placed_rev_doc h (r_subject r) g g' r I Ed Nr) as P. apply st_done.
        -- eapply placed_inv; [exact I|exact P|apply Sup; auto|reflexivity|exact Ei|exact Hh|].
           intros o'. rewrite elem_of_cons, Hops, (pl_ops _ _ _ _ _ P). split; [intros [->|[A A']]; auto|]. intros [[A| ->] A']; auto.
        -- eapply placed_grows; [exact P|reflexivity].
        -- cbn. rewrite Esig, lookup_insert. eauto.
      * apply st_fail; [intros ?; discriminate|reflexivity|exact B|]. cbn. intros (_ & d' & R' & Gd). rewrite R in R'. injection R' as <-. auto.
    + exfalso. destruct G0; congruence.
Qed.

Lemma prekey_frame k o k' e : PrekeyModel.receive_prekey_op k o = (k', e) ->
  ks_active k' = ks_active k /\ ks_public k' = ks_public k /\ dom (ks_docs k') = dom (ks_docs k) /\ dom (ks_groups k') = dom (ks_groups k) /\
  (forall i, is_Some (ks_indies k !! i) -> is_Some (ks_indies k' !! i)) /\
  (forall i, is_Some (ks_indies k' !! i) -> is_Some (ks_indies k !! i) \/ i = ko_issuer o) /\
  (ko_issuer o = ks_public k \/ ko_issuer o = ks_active k \/ is_Some (ks_docs k !! ko_issuer o) \/ is_Some (ks_groups k !! ko_issuer o) \/ is_Some (ks_indies k' !! ko_issuer o)).
Proof.
  assert (D : forall (m : gmap ident (option individual)) i x, is_Some (m !! i) -> dom (<[i := x]> m) = dom m).
  { intros m i x H. rewrite dom_insert_L. apply elem_of_dom in H. set_solver. }
  unfold PrekeyModel.receive_prekey_op. set (i := ko_issuer o).
  assert (S : forall x, ks_active (set_indie k i x) = ks_active k /\ ks_public (set_indie k i x) = ks_public k /\ dom (ks_docs (set_indie k i x)) = dom (ks_docs k) /\ dom (ks_groups (set_indie k i x)) = dom (ks_groups k) /\
    (forall j, is_Some (ks_indies k !! j) -> is_Some (ks_indies (set_indie k i x) !! j)) /\ (forall j, is_Some (ks_indies (set_indie k i x) !! j) -> is_Some (ks_indies k !! j) \/ j = i) /\ is_Some (ks_indies (set_indie k i x) !! i)).
  { intros x. cbn. split; [reflexivity|]. split; [reflexivity|]. split; [reflexivity|]. split; [reflexivity|]. split; [|split].
    - intros j H. apply lookup_insert_is_Some. destruct (decide (i = j)); auto.
    - intros j H. apply lookup_insert_is_Some in H as [->|[_ H]]; auto.
    - rewrite lookup_insert. eauto. }
  destruct (Nat.eqb_spec i (ks_public k)) as [E|N]; [intros [= <- <-]; auto 20|]. destruct (Nat.eqb_spec i (ks_active k)) as [E|N'].
  { destruct (ks_indies k !! i) as [x|]; [|intros [= <- <-]; auto 20]. destruct (receive_key x o) as [x' e']. intros [= <- <-]. destruct (S x') as (A & B & C & D' & F & G & _). auto 20. }
  destruct (ks_docs k !! i) as [[x|]|] eqn:Ed.
  { destruct (receive_key x o) as [x' e']. intros [= <- <-]. cbn. rewrite D by eauto. split; [reflexivity|]. split; [reflexivity|]. split; [reflexivity|]. split; [reflexivity|]. split; [auto|]. split; [auto|]. right. right. left. eauto. }
  { intros [= <- <-]. cbn. rewrite D by eauto. split; [reflexivity|]. split; [reflexivity|]. split; [reflexivity|]. split; [reflexivity|]. split; [auto|]. split; [auto|]. right. right. left. eauto. }
  destruct (ks_groups k !! i) as [[x|]|] eqn:Eg.
  { destruct (receive_key x o) as [x' e']. intros [= <- <-]. cbn. rewrite D by eauto. split; [reflexivity|]. split; [reflexivity|]. split; [reflexivity|]. split; [reflexivity|]. split; [auto|]. split; [auto|]. right. right. right. left. eauto. }
  { intros [= <- <-]. cbn. rewrite D by eauto. split; [reflexivity|]. split; [reflexivity|]. split; [reflexivity|]. split; [reflexivity|]. split; [auto|]. split; [auto|]. right. right. right. left. eauto. }
  destruct (receive_key _ o) as [x' e']. intros [= <- <-]. destruct (S x') as (A & B & C & D' & F & G & H). auto 20.
Qed.
Lemma receive_key_step h o h' out : inv h -> W (EKey o) -> receive_key_event h o = (h', out) ->
  inv h' /\ grows h h' /\ known_agent h' (ko_issuer o) = true /\ (out = HDone \/ exists k, out = HFail (HPrekey k)).
Proof.
  intros I Wo. unfold receive_key_event. destruct (PrekeyModel.receive_prekey_op (h_keys h) o) as [k e] eqn:E. intros [= <- <-].
  destruct (prekey_frame _ _ _ _ E) as (A & P & Dd & Dg & Mono & New & Kn).
  assert (Grow : forall i, known_agent h i = true -> known_agent (put_keys h k) i = true). { intros i. rewrite !known_agent_spec. cbn. rewrite A. specialize (Mono i). tauto. }
  split; [|split; [split; auto; intros [|]; auto|split]].
  - destruct I as [I1 I2 I3 I4 I5 I6 I7 I8 I9 I10 I11 I12 I13 I14]. split; cbn; auto.
    + intros i Hi. apply New in Hi as [Hi| ->]; [auto|]. right. eauto.
    + congruence.
    + congruence.
    + congruence.
    + rewrite P. auto.
  - apply known_agent_spec. cbn. rewrite A.
    assert (X : is_Some (ks_docs (h_keys h) !! ko_issuer o) -> is_Some (h_docs h !! ko_issuer o)) by (rewrite <- !elem_of_dom, (iv_docs h I); auto).
    assert (Y : is_Some (ks_groups (h_keys h) !! ko_issuer o) -> is_Some (h_groups h !! ko_issuer o)) by (rewrite <- !elem_of_dom, (iv_groups h I); auto).
    destruct Kn as [Kn|Kn]; [|tauto]. right. right. right. rewrite Kn. apply Mono, (iv_public h I).
  - destruct e; eauto.
Qed.
(** The key agreement is apart from everything else. *)
Lemma cgka_inv h c : inv h -> inv (put_cg h c).
Proof. intros [I1 I2 I3 I4 I5 I6 I7 I8 I9 I10 I11 I12 I13 I14]. split; auto. Qed.
Lemma pending_inv h l : inv h -> inv (put_pending h l).
Proof. intros [I1 I2 I3 I4 I5 I6 I7 I8 I9 I10 I11 I12 I13 I14]. split; auto. Qed.
(** Equal but for the key agreement. *)
Definition same (h h' : hive) : Prop := exists c, h' = put_cg h c.
Lemma same_refl h : same h h.
Proof. exists (h_cg h). destruct h; reflexivity. Qed.
Lemma same_trans a b c : same a b -> same b c -> same a c.
Proof. intros [x ->] [y ->]. exists y. reflexivity. Qed.
Lemma same_acceptable h h' x : same h h' -> acceptable h' x -> acceptable h x.
Proof. intros [c ->]. destruct x; auto. Qed.
Lemma same_taken h h' x : same h h' -> taken h x <-> taken h' x.
Proof. intros [c ->]. destruct x; reflexivity. Qed.
(** What an attempt to take an event comes to. *)
Inductive attempt (h : hive) (x : sevent cop) (h' : hive) : houtcome -> Prop :=
| at_done : inv h' -> grows h h' -> taken h' x -> (forall o, x = EKey o -> known_agent h' (ko_issuer o) = true) -> attempt h x h' HDone
| at_drop o e : x = EKey o -> inv h' -> grows h h' -> known_agent h' (ko_issuer o) = true -> attempt h x h' (HFail (HPrekey e))
| at_fail e : (forall k, e <> HPrekey k) -> (forall o, x <> EKey o) -> inv h' -> grows h h' -> same h h' -> (is_membership x -> ~ taken h x) -> ~ acceptable h x -> attempt h x h' (HFail e).
Lemma receive_attempt h x h' out : inv h -> W x -> receive_event h x = (h', out) -> attempt h x h' out.
Proof.
  intros I Wx. destruct x as [o|c|x|x]; cbn [HiveModel.receive_event]; intros E.
  - destruct (receive_key_step h o h' out I Wx E) as (A & B & C & [->|[k ->]]).
    + apply at_done; auto; [exact Logic.I|]. intros o' [= <-]. exact C.
    + eapply at_drop; eauto.
  - unfold receive_cgka in E. destruct (negb _).
    { injection E as <- <-. apply at_fail; [intros ?; discriminate|intros ?; discriminate|exact I|apply grows_refl|apply same_refl|intros [? X]; discriminate X|intros []]. }
    destruct (h_docs h !! _).
    2: { injection E as <- <-. apply at_fail; [intros ?; discriminate|intros ?; discriminate|exact I|apply grows_refl|apply same_refl|intros [? X]; discriminate X|intros []]. }
    destruct (cg_receive _ _ _) as [y ok]. injection E as <- <-.
    assert (G : grows h (put_cg h y)) by (split; [intros []|..]; auto). destruct ok.
    + apply at_done; [apply cgka_inv, I|exact G|exact Logic.I|discriminate].
    + apply at_fail; [intros ?; discriminate|intros ?; discriminate|apply cgka_inv, I|exact G|exists y; reflexivity|intros [? X]; discriminate X|intros []].
  - destruct (receive_dlg_step h x h' out I Wx E) as [A B C|e A -> C D]; [apply at_done; auto; discriminate|]. apply at_fail; [exact A|intros ?; discriminate|exact I|apply grows_refl|apply same_refl|intros _; exact C|exact D].
  - destruct (receive_rev_step h x h' out I Wx E) as [A B C|e A -> C D]; [apply at_done; auto; discriminate|]. apply at_fail; [exact A|intros ?; discriminate|exact I|apply grows_refl|apply same_refl|intros _; exact C|exact D].
Qed.

(** *** Batches *)
Notation ingest_pass := (ingest_pass order doc_content cop_doc cop_ok cg_receive).
Notation ingest_loop := (ingest_loop order doc_content cop_doc cop_ok cg_receive).
Notation ingest := (ingest order doc_content cop_doc cop_ok cg_receive).
Notation ingest_all := (ingest_all order doc_content cop_doc cop_ok cg_receive).
(** The event has done all it can. *)
Definition settled (h : hive) (x : sevent cop) : Prop := taken h x /\ forall o, x = EKey o -> known_agent h (ko_issuer o) = true.
Definition stuck (h : hive) (x : sevent cop) : Prop := (forall o, x <> EKey o) /\ (is_membership x -> ~ taken h x) /\ ~ acceptable h x.
Lemma settled_grows h h' x : inv h -> grows h h' -> settled h x -> settled h' x.
Proof. intros I G [A B]. split; [eapply taken_grows; eauto|]. intros o E. apply (gw_known _ _ G), B, E. Qed.
Lemma same_stuck h h' x : same h h' -> stuck h x -> stuck h' x.
Proof. intros S (A & B & C). split; [exact A|]. split; [intros M Tk; apply (B M), (same_taken h h' x S), Tk|]. intros Ac. apply C. eapply same_acceptable; eauto. Qed.
Lemma pass_spec epoch : forall h, inv h -> (forall x, x ∈ epoch -> W x) ->
  exists h' next, ingest_pass h epoch = Some (h', next) /\ inv h' /\ grows h h' /\ (forall x, x ∈ next -> x ∈ epoch) /\ length next <= length epoch /\
    (forall x, x ∈ epoch -> settled h' x \/ x ∈ next) /\ (length next = length epoch -> same h h' /\ forall x, x ∈ next -> stuck h' x).
Proof.
  induction epoch as [|x epoch IH]; intros h I Hw.
  { exists h, []. cbn. split; [reflexivity|]. split; [exact I|]. split; [apply grows_refl|]. split; [auto|]. split; [lia|]. split; [intros x Hx; inversion Hx|]. intros _. split; [apply same_refl|intros x Hx; inversion Hx]. }
  cbn [HiveModel.ingest_pass]. destruct (receive_event h x) as [h1 out] eqn:E. assert (Wx : W x) by (apply Hw; left).
  assert (Hw' : forall y, y ∈ epoch -> W y) by (intros; apply Hw; right; assumption).
  destruct (receive_attempt h x h1 out I Wx E) as [A B C D|o e Eo A B C|e A B C D S F G].
  - destruct (IH h1 A Hw') as (h' & next & -> & I' & Gr & Sub & Len & Set_ & St). exists h', next. cbn [length]. split; [reflexivity|]. split; [exact I'|]. split; [eapply grows_trans; eauto|].
    split; [intros; right; auto|]. split; [lia|]. split; [|lia]. intros y Hy. apply elem_of_cons in Hy as [->|Hy]; [|auto]. left. apply (settled_grows h1 h'); [exact A|exact Gr|]. split; auto.
  - destruct (IH h1 A Hw') as (h' & next & -> & I' & Gr & Sub & Len & Set_ & St). exists h', next. cbn [length]. split; [reflexivity|]. split; [exact I'|]. split; [eapply grows_trans; eauto|].
    split; [intros; right; auto|]. split; [lia|]. split; [|lia]. intros y Hy. apply elem_of_cons in Hy as [->|Hy]; [|auto]. left. apply (settled_grows h1 h'); [exact A|exact Gr|].
    subst x. split; [exact Logic.I|]. intros o' [= <-]. exact C.
  - destruct (IH h1 C Hw') as (h' & next & Ep & I' & Gr & Sub & Len & Set_ & St). rewrite Ep.
    exists h', (x :: next). split; [destruct e; auto; exfalso; eapply A; reflexivity|]. cbn [length].
    split; [exact I'|]. split; [eapply grows_trans; eauto|]. split; [intros y Hy; apply elem_of_cons in Hy as [->|Hy]; [left|right; auto]|]. split; [lia|]. split.
    + intros y Hy. apply elem_of_cons in Hy as [->|Hy]; [right; left|]. destruct (Set_ y Hy); [auto|right; right; assumption].
    + intros L. destruct St as [Sa Ss]; [lia|]. split; [eapply same_trans; eauto|]. intros y Hy. apply elem_of_cons in Hy as [->|Hy]; [|auto].
      eapply same_stuck; [exact Sa|]. eapply same_stuck; [exact S|]. repeat split; auto.
Qed.
Lemma loop_spec fuel : forall h replayed epoch, inv h -> (forall x, x ∈ epoch -> W x) -> length epoch <= fuel ->
  exists h' next, ingest_loop fuel h replayed epoch = Some (h', next) /\ inv h' /\ (forall o, has_op h o -> has_op h' o) /\ (forall i, known_agent h i = true -> known_agent h' i = true) /\
    (forall x, x ∈ next -> x ∈ epoch) /\ (forall x, x ∈ epoch -> settled h' x \/ x ∈ next) /\ (forall x, x ∈ next -> stuck h' x) /\
    (h_pending h' = next \/ next = [] /\ h_pending h' = filter (fun e => e ∉ replayed) (h_pending h)).
Proof.
  assert (Fin : forall h h1 (l next epoch : list (sevent cop)), inv h1 -> grows h h1 -> (forall x, x ∈ next -> x ∈ epoch) -> (forall x, x ∈ epoch -> settled h1 x \/ x ∈ next) -> (forall x, x ∈ next -> stuck h1 x) ->
    let h' := put_pending h1 l in
    inv h' /\ (forall o, has_op h o -> has_op h' o) /\ (forall i, known_agent h i = true -> known_agent h' i = true) /\
    (forall x, x ∈ next -> x ∈ epoch) /\ (forall x, x ∈ epoch -> settled h' x \/ x ∈ next) /\ (forall x, x ∈ next -> stuck h' x)).
  { intros h h1 l next epoch I G Sub Set_ St h'. split; [apply pending_inv, I|]. split; [intros [|] Ho; apply (gw_ops _ _ G _ Ho)|]. split; [intros i Hi; exact (gw_known _ _ G i Hi)|]. split; [exact Sub|]. split.
    - intros x Hx. destruct (Set_ x Hx) as [[A B]|A]; [|auto]. left. split; [destruct x; exact A|exact B].
    - intros x Hx. destruct (St x Hx) as (A & B & C). split; [exact A|]. split; [intros M Tk; apply (B M); destruct x; exact Tk|]. intros Ac. apply C. destruct x; exact Ac. }
  induction fuel as [|fuel IH]; intros h replayed epoch I Hw L.
  - destruct epoch; cbn in L; [|lia]. cbn. eexists _, []. split; [reflexivity|].
    destruct (Fin h h (filter (fun e => e ∉ replayed) (h_pending h)) [] [] I (grows_refl h)) as (A & B & C & D & E & F); auto; [intros x Hx; inversion Hx..|]. auto 10.
  - cbn [HiveModel.ingest_loop]. destruct (pass_spec epoch h I Hw) as (h1 & next & -> & I1 & G & Sub & Len & Set_ & St). destruct next as [|y next0].
    + eexists _, []. split; [reflexivity|]. destruct (Fin h h1 (filter (fun e => e ∉ replayed) (h_pending h1)) [] epoch I1 G) as (A & B & C & D & E & F); auto; [intros x Hx; inversion Hx|].
      rewrite <- (gw_pending _ _ G). auto 10.
    + remember (y :: next0) as next eqn:En. clear En. destruct (Nat.eqb_spec (length next) (length epoch)) as [Eq|Ne].
      * eexists _, next. split; [reflexivity|]. destruct (St Eq) as [_ St']. destruct (Fin h h1 next next epoch I1 G) as (A & B & C & D & E & F); auto 10.
      * destruct (IH h1 replayed next I1) as (h' & nx & -> & I' & A & B & C & D & E & F); [intros x Hx; apply Hw, Sub, Hx|lia|].
        exists h', nx. split; [reflexivity|]. split; [exact I'|]. split; [intros o Ho; apply A, (gw_ops _ _ G), Ho|]. split; [intros i Hi; apply B, (gw_known _ _ G), Hi|]. split; [auto|]. split; [|split; [exact E|]].
        -- intros x Hx. destruct (Set_ x Hx) as [[S1 S2]|S]; [|auto]. left. split; [|intros o Eo; apply B, S2, Eo]. clear - S1 I1 A.
           destruct x as [o|c|x|x]; auto; destruct S1 as [d Hd]; [pose proof (iv_dlgs h1 I1 _ _ Hd) as Q; exists d; rewrite <- Q in Hd |- *; apply (A (MD d)), Hd|pose proof (iv_revs h1 I1 _ _ Hd) as Q; exists d; rewrite <- Q in Hd |- *; apply (A (MR d)), Hd].
        -- rewrite <- (gw_pending _ _ G). exact F.
Qed.
(** The client has dealt with the events in [R]: each is settled or pending, and what is pending
    cannot be taken. *)
Record caught_up (R : sevent cop -> Prop) (h : hive) : Prop := {
  cu_inv : inv h;
  cu_all : forall x, R x -> settled h x \/ x ∈ h_pending h;
  cu_pending : forall x, x ∈ h_pending h -> R x /\ stuck h x
}.
Lemma settled_ops (h h' : hive) x : inv h -> (forall o, has_op h o -> has_op h' o) -> (forall i, known_agent h i = true -> known_agent h' i = true) -> settled h x -> settled h' x.
Proof.
  intros I A B [S1 S2]. split; [|intros o Eo; apply B, S2, Eo].
  destruct x as [o|c|x|x]; auto; destruct S1 as [d Hd]; [pose proof (iv_dlgs h I _ _ Hd) as Q; exists d; rewrite <- Q in Hd |- *; apply (A (MD d)), Hd|pose proof (iv_revs h I _ _ Hd) as Q; exists d; rewrite <- Q in Hd |- *; apply (A (MR d)), Hd].
Qed.
Lemma ingest_spec shuffle R h events : (forall l, shuffle l ≡ₚ l) -> caught_up R h -> (forall x, R x -> W x) -> (forall x, x ∈ events -> W x) ->
  exists h' pending, ingest shuffle h events = Some (h', pending) /\ caught_up (fun x => R x \/ x ∈ events) h' /\ h_pending h' = pending.
Proof.
  intros Sh C HR He. unfold HiveModel.ingest, HiveModel.ingest_from. set (epoch := shuffle (remove_dups (events ++ h_pending h))).
  assert (Ep : forall x, x ∈ epoch <-> x ∈ events \/ x ∈ h_pending h). { intros x. unfold epoch. rewrite Sh, elem_of_remove_dups, elem_of_app. reflexivity. }
  destruct (loop_spec (length epoch) h (h_pending h) epoch (cu_inv _ _ C)) as (h' & next & -> & I' & A & B & Sub & Set_ & St & Pe); [|lia|].
  { intros x Hx. apply Ep in Hx as [Hx|Hx]; [auto|]. apply HR, (cu_pending _ _ C), Hx. }
  assert (Pn : h_pending h' = next).
  { destruct Pe as [Pe|[-> Pe]]; [exact Pe|]. rewrite Pe. destruct (filter _ _) as [|y l] eqn:F; [reflexivity|]. assert (Y : y ∈ filter (fun e => e ∉ h_pending h) (h_pending h)) by (rewrite F; left).
    apply elem_of_list_filter in Y as [Y1 Y2]. contradiction. }
  exists h', next. split; [reflexivity|]. split; [|exact Pn]. split; [exact I'| |].
  - intros x Hx. rewrite Pn. destruct Hx as [Hx|Hx]; [|apply Set_, Ep; auto]. destruct (cu_all _ _ C x Hx) as [S|S]; [|apply Set_, Ep; auto]. left. eapply settled_ops; [exact (cu_inv _ _ C)|..]; eauto.
  - rewrite Pn. intros x Hx. split; [|apply St, Hx]. apply Sub, Ep in Hx as [Hx|Hx]; [auto|]. left. apply (cu_pending _ _ C), Hx.
Qed.
Lemma caught_up_ext R R' h : (forall x, R x <-> R' x) -> caught_up R h -> caught_up R' h.
Proof. intros E [A B C]. split; [exact A|intros x Hx; apply B, E, Hx|intros x Hx; rewrite <- E; apply C, Hx]. Qed.
Lemma ingest_all_spec shuffle batches : (forall l, shuffle l ≡ₚ l) -> forall R h, caught_up R h -> (forall x, R x -> W x) -> (forall x, handed batches x -> W x) ->
  exists h', ingest_all shuffle h batches = Some h' /\ caught_up (fun x => R x \/ handed batches x) h'.
Proof.
  intros Sh. induction batches as [|b batches IH]; intros R h C HR Hb.
  - exists h. split; [reflexivity|]. eapply caught_up_ext; [|exact C]. intros x. split; [auto|]. intros [?|(b & Hb' & _)]; [assumption|inversion Hb'].
  - cbn [HiveModel.ingest_all]. destruct (ingest_spec shuffle R h b Sh C HR) as (h1 & pe & -> & C1 & _). { intros x Hx. apply Hb. exists b. split; [left|exact Hx]. }
    destruct (IH (fun x => R x \/ x ∈ b) h1 C1) as (h' & -> & C').
    + intros x [Hx|Hx]; [auto|]. apply Hb. exists b. split; [left|exact Hx].
    + intros x (b' & A & B). apply Hb. exists b'. split; [right; exact A|exact B].
    + exists h'. split; [reflexivity|]. eapply caught_up_ext; [|exact C']. intros x. unfold handed. split.
      * intros [[?|?]|(b' & A & B)]; [auto|right; exists b; split; [left|assumption]|right; exists b'; split; [right; exact A|exact B]].
      * intros [?|(b' & A & B)]; [auto|]. apply elem_of_cons in A as [->|A]; [auto|]. right. eauto.
Qed.
(** *** A client that has dealt with everything has exactly what is supported *)
Lemma complete h : caught_up W h -> (forall o, supported W K o -> has_op h o) /\ (forall i, reachable W K i -> known_agent h i = true).
Proof.
  intros C. pose proof (cu_inv _ _ C) as I. pose proof (from_genuine W (tm_digests _ _ T)) as U. apply supported_reachable.
  - intros x p rs Wx Ok Ep Er Hp IHp Hr IHr Ra IHa G. assert (R : resolve_dlg h x = inr (dlg_of x p rs)) by (apply resolve_dlg_all; auto).
    destruct (cu_all _ _ C (EDlg x) Wx) as [[[d Hd] _]|Pe].
    + pose proof (iv_dlgs h I _ _ Hd) as Q. assert (E : MD d = MD (dlg_of x p rs)).
      { apply U; [eapply sup_from, (iv_sup h I); cbn; rewrite Q; exact Hd| |exact Q]. apply from_dlg; auto; intros; eapply sup_from; eauto. }
      injection E as ->. exact Hd.
    + exfalso. destruct (cu_pending _ _ C _ Pe) as (_ & _ & _ & N). apply N. cbn. split; [exact Ok|]. eauto.
  - intros x t p Wx Ok Et Ep Ht IHt Hp IHp G. assert (R : resolve_rev h x = inr (rev_of x t p)) by (apply resolve_rev_all; auto).
    destruct (cu_all _ _ C (ERev x) Wx) as [[[d Hd] _]|Pe].
    + pose proof (iv_revs h I _ _ Hd) as Q. assert (E : MR d = MR (rev_of x t p)).
      { apply U; [eapply sup_from, (iv_sup h I); cbn; rewrite Q; exact Hd| |exact Q]. apply from_rev; auto; intros; eapply sup_from; eauto. }
      injection E as ->. exact Hd.
    + exfalso. destruct (cu_pending _ _ C _ Pe) as (_ & _ & _ & N). apply N. cbn. split; [exact Ok|]. eauto.
  - intros i Ki. apply (iv_known h I), Ki.
  - intros o Wo. destruct (cu_all _ _ C (EKey o) Wo) as [[_ S]|Pe]; [apply S; reflexivity|]. exfalso. destruct (cu_pending _ _ C _ Pe) as (_ & N & _). eapply N. reflexivity.
  - intros d _ Hd. destruct (iv_subject h I (MD d) Hd) as (g & [G|G]); apply known_agent_spec; [right; right; left|right; left]; cbn in G; eauto.
Qed.
Lemma exact_ops h : caught_up W h -> forall o, has_op h o <-> supported W K o.
Proof. intros C o. split; [apply (iv_sup h (cu_inv _ _ C))|apply (complete h C)]. Qed.
(** What is pending among the membership events: those that stand for no supported operation. *)
Lemma exact_pending h x : caught_up W h -> is_membership x -> x ∈ h_pending h <-> W x /\ forall o, supported W K o -> ev_sig x <> Some (op_sig o).
Proof.
  intros C M. pose proof (cu_inv _ _ C) as I. split.
  - intros Hx. destruct (cu_pending _ _ C x Hx) as (Wx & _ & N & _). split; [exact Wx|]. intros o So E. apply (N M). apply (exact_ops h C) in So.
    pose proof (sup_from _ _ _ (iv_sup h I _ So)) as F. destruct F as [y p rs Wy _ _ _ _|y t p Wy _ _ _ _].
    + assert (x = EDlg y) as -> by (apply (tm_digests _ _ T _ _ _ Wx Wy E); reflexivity). cbn in So |- *. eauto.
    + assert (x = ERev y) as -> by (apply (tm_digests _ _ T _ _ _ Wx Wy E); reflexivity). cbn in So |- *. eauto.
  - intros [Wx N]. destruct (cu_all _ _ C x Wx) as [[Tk _]|?]; [|assumption]. exfalso. destruct x as [o|c|x|x]; cbn in Tk; [destruct M; discriminate|destruct M; discriminate|..]; destruct Tk as [d Hd].
    + pose proof (iv_dlgs h I _ _ Hd) as Q. apply (N (MD d)); [apply (iv_sup h I); cbn; rewrite Q; exact Hd|cbn; congruence].
    + pose proof (iv_revs h I _ _ Hd) as Q. apply (N (MR d)); [apply (iv_sup h I); cbn; rewrite Q; exact Hd|cbn; congruence].
Qed.
(** A blank client. *)
Lemma blank_inv h : blank h -> (forall i, K i <-> known_agent h i = true) -> caught_up (fun _ => False) h.
Proof.
  intros (Eg & Ed & El & Er & Ep & Kd & Kg & Pu) HK. split; [split| |].
  - rewrite El. intros s d. rewrite lookup_empty. discriminate.
  - rewrite Er. intros s d. rewrite lookup_empty. discriminate.
  - intros [d|r]; cbn; [rewrite El|rewrite Er]; rewrite lookup_empty; discriminate.
  - intros i g [H|H]; [rewrite Eg in H|rewrite Ed in H]; rewrite lookup_empty in H; discriminate.
  - intros [d|r]; cbn; [rewrite El|rewrite Er]; rewrite lookup_empty; discriminate.
  - rewrite Eg. intros i []; rewrite lookup_empty in *; discriminate.
  - intros i Hi. left. apply HK, known_agent_spec. auto.
  - apply HK, known_agent_spec. auto.
  - intros i Ki. apply HK, Ki.
  - rewrite Kd, Ed. rewrite !dom_empty_L. reflexivity.
  - rewrite Kg, Eg. rewrite !dom_empty_L. reflexivity.
  - exact Pu.
  - rewrite Eg. intros i g. rewrite lookup_empty. discriminate.
  - rewrite Ed. intros i g. rewrite lookup_empty. discriminate.
  - intros x [].
  - rewrite Ep. intros x Hx. inversion Hx.
Qed.
End hive.
