(** Proofs about storing a client and bringing it back. *)
From Coq Require Import Arith Lia.
From stdpp Require Import base list gmap relations sorting.
From Verif Require Import AccessModel GroupModel CgkaSpec GroupSpec GroupReplay GroupMembers GroupHistory GroupTransitive GroupPropsProofs PrekeyModel HiveModel HiveSpec HiveProofs.
From Verif Require Import SyncModel ArchiveModel ArchiveSpec.

Section archive.
Context (order : gset nat -> list nat) (O : some_order order).
Context {cg cop : Type} `{EqDecision cop}.
Notation hive := (hive cg cop).

(** ** Maps and lists *)
Lemma find_dlgs_all (ds : gmap sig dlg) (l : list dlg) : (forall d, d ∈ l -> ds !! d_sig d = Some d) -> find_dlgs ds (map d_sig l) = inr l.
Proof.
  induction l as [|d l IH]; intros Hl; cbn; [reflexivity|]. rewrite (Hl d) by left. rewrite IH; [reflexivity|]. intros x Hx. apply Hl. right. exact Hx.
Qed.
Lemma find_revs_sigs (rs : gmap sig rev) (l : list rev) : (forall r, r ∈ l -> rs !! r_sig r = Some r) -> find_revs rs (map r_sig l) = inr l.
Proof.
  induction l as [|d l IH]; intros Hl; cbn; [reflexivity|]. rewrite (Hl d) by left. rewrite IH; [reflexivity|]. intros x Hx. apply Hl. right. exact Hx.
Qed.
Lemma keys_values {A} (f : A -> nat) (m : gmap nat A) : (forall s x, m !! s = Some x -> f x = s) -> map f (omap (m !!.) (order (dom m))) = order (dom m).
Proof.
  intros F. assert (Hin : forall s, s ∈ order (dom m) -> is_Some (m !! s)) by (intros s; apply order_dom; exact O). revert Hin.
  induction (order (dom m)) as [|s l IH]; intros Hin; [reflexivity|]. cbn. destruct (Hin s) as [x E]; [left|]. rewrite E. cbn. rewrite (F _ _ E). f_equal.
  apply IH. intros y Hy. apply Hin. right. exact Hy.
Qed.
Lemma values_map {A} (f : A -> nat) (m : gmap nat A) : (forall s x, m !! s = Some x -> f x = s) ->
  list_to_map (map (fun x => (f x, x)) (omap (m !!.) (order (dom m)))) = m.
Proof.
  intros F. apply map_eq. intros s.
  assert (ND : NoDup (map (fun x => (f x, x)) (omap (m !!.) (order (dom m)))).*1).
  { rewrite <- list_fmap_compose. change (NoDup (map f (omap (m !!.) (order (dom m))))). rewrite (keys_values f m F), (O (dom m)). apply NoDup_elements. }
  destruct (m !! s) as [x|] eqn:E.
  - apply elem_of_list_to_map_1; [exact ND|]. apply elem_of_list_fmap. exists x. rewrite (F _ _ E). split; [reflexivity|]. apply elem_of_list_omap. exists s. split; [|exact E].
    apply order_dom; [exact O|eauto].
  - apply not_elem_of_list_to_map_1. intros Hin. apply elem_of_list_fmap in Hin as ([s' x] & -> & Hin). apply elem_of_list_fmap in Hin as (y & [= -> <-] & Hin).
    apply elem_of_list_omap in Hin as (s & _ & Es). cbn in E. rewrite (F _ _ Es), Es in E. discriminate.
Qed.
Lemma keyed_in {A} (m : gmap nat A) i x : (i, x) ∈ keyed order m <-> m !! i = Some x.
Proof.
  unfold keyed. rewrite elem_of_list_omap. split.
  - intros (j & _ & E). destruct (m !! j) as [y|] eqn:Y; [|discriminate]. cbn in E. congruence.
  - intros E. exists i. split; [apply order_dom; [exact O|eauto]|]. rewrite E. reflexivity.
Qed.
Lemma keyed_fst {A} (m : gmap nat A) : (keyed order m).*1 = order (dom m).
Proof.
  unfold keyed. assert (Hin : forall s, s ∈ order (dom m) -> is_Some (m !! s)) by (intros s; apply order_dom; exact O). revert Hin.
  induction (order (dom m)) as [|s l IH]; intros Hin; [reflexivity|]. cbn. destruct (Hin s) as [x E]; [left|]. rewrite E. cbn. f_equal.
  apply IH. intros y Hy. apply Hin. right. exact Hy.
Qed.
Lemma keyed_map {A} (m : gmap nat A) : list_to_map (keyed order m) = m.
Proof.
  assert (ND : NoDup (keyed order m).*1) by (rewrite keyed_fst, (O (dom m)); apply NoDup_elements).
  apply map_eq. intros i. destruct (m !! i) as [x|] eqn:E.
  - apply elem_of_list_to_map_1; [exact ND|]. apply keyed_in, E.
  - apply not_elem_of_list_to_map_1. intros Hin. apply elem_of_list_fmap in Hin as ([j x] & -> & Hin). apply keyed_in in Hin. cbn in E. congruence.
Qed.

(** ** Operations *)
Section ops.
Context (a : archive cg cop) (ops : list mop).
Definition loaded (l : list mop) (ds : gmap sig dlg) (rs : gmap sig rev) : Prop :=
  (forall s d, ds !! s = Some d <-> MD d ∈ l /\ d_sig d = s) /\ (forall s r, rs !! s = Some r <-> MR r ∈ l /\ r_sig r = s).
Lemma load_ops_all todo : forall past ds rs, ops = past ++ todo -> loaded past ds rs -> genuine (fun o => o ∈ ops) ->
  (forall i j o p, ops !! i = Some o -> ops !! j = Some p -> p ∈ parents o -> j < i) -> (forall o p, o ∈ ops -> p ∈ parents o -> p ∈ ops) ->
  (forall d, MD d ∈ ops -> archived_agent a (d_delegate d) = true) ->
  exists ds' rs', load_ops a ds rs (map stored_op todo) = inr (ds', rs') /\ loaded ops ds' rs'.
Proof.
  induction todo as [|o todo IH]; intros past ds rs E L U C P A.
  - rewrite app_nil_r in E. subst past. exists ds, rs. split; [reflexivity|exact L].
  - assert (Ho : o ∈ ops) by (rewrite E; apply elem_of_app; right; left).
    assert (Hp : forall p, p ∈ parents o -> p ∈ past).
    { intros p Hp. pose proof (P _ _ Ho Hp) as Hin. apply elem_of_list_lookup in Hin as [j Ej].
      assert (Eo : ops !! length past = Some o). { rewrite E. rewrite list_lookup_middle; reflexivity. }
      pose proof (C _ _ _ _ Eo Ej Hp) as Lt. rewrite E, lookup_app_l in Ej by exact Lt. eapply elem_of_list_lookup_2, Ej. }
    destruct L as [L1 L2].
    assert (FP : forall p : option dlg, (forall q, p = Some q -> MD q ∈ parents o) -> find_proof_dlg ds (d_sig <$> p) = inr p).
    { intros [q|] Hq; cbn; [|reflexivity]. replace (ds !! d_sig q) with (Some q); [reflexivity|]. symmetry. apply L1. split; [apply Hp, Hq; reflexivity|reflexivity]. }
    assert (E' : ops = (past ++ [o]) ++ todo) by (rewrite <- app_assoc; exact E).
    destruct o as [d|r].
    + assert (S : load_op a ds rs (stored_op (MD d)) = inr (<[d_sig d := d]> ds, rs)).
      { cbn [stored_op load_op sd_proof sd_after sd_delegate sd_sig sd_issuer sd_can sd_content]. rewrite FP.
        2: { intros q Eq. apply proof_parent, Eq. }
        change (r_sig <$> d_after d) with (map r_sig (d_after d)). rewrite find_revs_sigs.
        2: { intros r Hr. apply L2. split; [|reflexivity]. apply Hp. cbn. apply elem_of_app. right. apply elem_of_list_fmap. eauto. }
        rewrite (A d Ho). destruct d; reflexivity. }
      cbn [map load_ops]. rewrite S. apply (IH (past ++ [MD d])); auto. split.
      * intros s x. destruct (decide (s = d_sig d)) as [->|N].
        -- rewrite lookup_insert. split; [intros [= <-]; split; [apply elem_of_app; right; left|reflexivity]|].
           intros [Hx Ex]. assert (X : MD x = MD d) by (apply U; [|exact Ho|cbn; congruence]; rewrite E'; apply elem_of_app; left; exact Hx). congruence.
        -- rewrite lookup_insert_ne by congruence. rewrite L1, elem_of_app, elem_of_list_singleton. split; [tauto|]. intros [[Hx|Hx] Ex]; [tauto|]. injection Hx as ->. congruence.
      * intros s x. rewrite L2, elem_of_app, elem_of_list_singleton. split; [tauto|]. intros [[Hx|Hx] Ex]; [tauto|discriminate].
    + assert (S : load_op a ds rs (stored_op (MR r)) = inr (ds, <[r_sig r := r]> rs)).
      { cbn [stored_op load_op sr_revoke sr_proof sr_sig sr_issuer sr_content]. rewrite FP.
        2: { intros q Eq. cbn. rewrite Eq. right. left. }
        replace (ds !! d_sig (r_revoke r)) with (Some (r_revoke r)); [destruct r; reflexivity|]. symmetry. apply L1. split; [apply Hp, revoke_parent|reflexivity]. }
      cbn [map load_ops]. rewrite S. apply (IH (past ++ [MR r])); auto. split.
      * intros s x. rewrite L1, elem_of_app, elem_of_list_singleton. split; [tauto|]. intros [[Hx|Hx] Ex]; [tauto|discriminate].
      * intros s x. destruct (decide (s = r_sig r)) as [->|N].
        -- rewrite lookup_insert. split; [intros [= <-]; split; [apply elem_of_app; right; left|reflexivity]|].
           intros [Hx Ex]. assert (X : MR x = MR r) by (apply U; [|exact Ho|cbn; congruence]; rewrite E'; apply elem_of_app; left; exact Hx). congruence.
        -- rewrite lookup_insert_ne by congruence. rewrite L2, elem_of_app, elem_of_list_singleton. split; [tauto|]. intros [[Hx|Hx] Ex]; [tauto|]. injection Hx as ->. congruence.
Qed.
End ops.

(** ** Groups *)
Lemma load_members_all (ds : gmap sig dlg) (l : list (ident * list dlg)) : (forall i xs d, (i, xs) ∈ l -> d ∈ xs -> ds !! d_sig d = Some d) ->
  load_members ds (map (fun x => (x.1, map d_sig x.2)) l) = inr (list_to_map l).
Proof.
  induction l as [|[i xs] l IH]; intros Hl; cbn; [reflexivity|]. rewrite find_dlgs_all by (intros d Hd; eapply Hl; [left|exact Hd]). rewrite IH; [reflexivity|].
  intros j ys d Hj Hd. eapply Hl; [right; exact Hj|exact Hd].
Qed.
Lemma keyed_fmap {A B} (f : A -> B) (m : gmap nat A) : keyed order (f <$> m) = map (fun x => (x.1, f x.2)) (keyed order m).
Proof.
  unfold keyed. rewrite dom_fmap_L. induction (order (dom m)) as [|i l IH]; [reflexivity|]. cbn. rewrite lookup_fmap. destruct (m !! i); cbn; rewrite IH; reflexivity.
Qed.
Lemma load_group_all (ds : gmap sig dlg) (rs : gmap sig rev) (g : group) : filed g ->
  (forall d, is_head g (MD d) -> ds !! d_sig d = Some d /\ (d_proof d = None -> d_issuer d = gr_id g)) -> (forall r, is_head g (MR r) -> rs !! r_sig r = Some r) ->
  (forall j l, gr_members g !! j = Some l -> l <> [] /\ forall d, d ∈ l -> ds !! d_sig d = Some d) ->
  load_group order ds rs (archive_group g) = inr (forget_group g).
Proof.
  intros [F1 F2] Hd Hr Hm. unfold load_group, archive_group. cbn [ga_dheads ga_rheads ga_members ga_id].
  rewrite <- (keys_values d_sig _ F1), find_dlgs_all.
  2: { intros d Hin. apply elem_of_list_omap in Hin as (s & _ & E). apply Hd. cbn. rewrite (F1 _ _ E). exact E. }
  rewrite <- (keys_values r_sig _ F2), find_revs_sigs.
  2: { intros r Hin. apply elem_of_list_omap in Hin as (s & _ & E). apply Hr. cbn. rewrite (F2 _ _ E). exact E. }
  replace (filter (fun x : ident * list sig => x.2 <> []) (map d_sig <$> gr_members g)) with (map d_sig <$> gr_members g).
  2: { symmetry. apply map_filter_id. intros j l E. cbn. rewrite lookup_fmap in E. destruct (gr_members g !! j) as [x|] eqn:X; [|discriminate]. injection E as <-.
       destruct (Hm _ _ X) as [N _]. destruct x; [congruence|discriminate]. }
  rewrite keyed_fmap, load_members_all.
  2: { intros i xs d Hin Hx. apply keyed_in in Hin. destruct (Hm _ _ Hin) as [_ M]. apply M, Hx. }
  rewrite keyed_map. unfold forget_group. do 2 f_equal; [|apply values_map, F2].
  rewrite <- (values_map d_sig _ F1) at 2. do 2 f_equal. 
  assert (Q : forall l : list dlg, (forall d, d ∈ l -> d_proof d = None -> d_issuer d = gr_id g) ->
    filter (fun d => match d_proof d with Some _ => false | None => negb (d_issuer d =? gr_id g) end = false) l = l).
  { induction l as [|d l IH]; intros Hl; [reflexivity|]. rewrite filter_cons_True, IH; [reflexivity| |].
    - intros x Hx. apply Hl. right. exact Hx.
    - destruct (d_proof d) eqn:Ed; [reflexivity|]. rewrite (Hl d), Nat.eqb_refl; [reflexivity|left|exact Ed]. }
  apply Q. intros d Hin. apply elem_of_list_omap in Hin as (s & _ & E). apply Hd. cbn. rewrite (F1 _ _ E). exact E.
Qed.
Lemma load_groups_all (ds : gmap sig dlg) (rs : gmap sig rev) (m : gmap ident group) :
  (forall i g, m !! i = Some g -> load_group order ds rs (archive_group g) = inr (forget_group g)) ->
  load_groups order ds rs (keyed order (archive_group <$> m)) = inr (forget_group <$> m).
Proof.
  intros Hm. rewrite keyed_fmap. rewrite <- (keyed_map m) at 2. 
  assert (Hl : forall i g, (i, g) ∈ keyed order m -> load_group order ds rs (archive_group g) = inr (forget_group g)) by (intros i g Hin; eapply Hm, keyed_in, Hin).
  revert Hl. induction (keyed order m) as [|[i g] l IH]; intros Hl; cbn; [rewrite fmap_empty; reflexivity|].
  rewrite (Hl i g) by left. rewrite IH by (intros; eapply Hl; right; eauto). rewrite fmap_insert. reflexivity.
Qed.

(** ** The round trip *)
Lemma stored_ops (h : hive) : intact h -> exists a ops, into_archive order h = Some a /\
  a = Archive (h_keys h) (map stored_op ops) (archive_group <$> h_groups h) (archive_group <$> h_docs h) (h_cg h) (h_pending h) /\
  (forall o, o ∈ ops <-> has_op h o) /\ (forall i j o p, ops !! i = Some o -> ops !! j = Some p -> p ∈ parents o -> j < i).
Proof.
  intros I. pose (g := Group 0 (h_dlgs h) (h_revs h) ∅ ∅).
  assert (F : filed g) by (split; [exact (in_dlgs h I)|exact (in_revs h I)]).
  assert (K : forall o, known g o <-> has_op h o).
  { intros o. split; [|intros Ho; exists o; split; [destruct o; exact Ho|apply rtc_refl]].
    intros (x & Hx & R). assert (Hx' : has_op h x) by (destruct x; exact Hx). clear Hx. induction R as [|x y z S R IH]; [exact Hx'|]. apply IH. eapply (in_parents h I); eauto. }
  assert (U : genuine (known g)) by (intros x y Hx Hy; apply (in_genuine h I); apply K; assumption).
  destruct (replay_order_spec order O g F U) as (ops & (l & all & E & Eo) & ND & Hk & Hc & Ha & _).
  assert (Or : orderable (known g)).
  { destruct (in_order h I) as (f & F1 & F2). exists f. split; [intros o p Ho; apply F1, K, Ho|]. intros d p r Hd Hr. apply F2; apply K; assumption. }
  specialize (Ha Or). change (gr_dheads g) with (h_dlgs h) in E. change (gr_rheads g) with (h_revs h) in E.
  unfold into_archive. rewrite E, <- Eo. eexists _, ops. split; [reflexivity|]. split; [reflexivity|]. split; [|exact Hc].
  intros o. split; [intros Ho; apply K, Hk, Ho|intros Ho; apply Ha, K, Ho].
Qed.
Lemma round_trip (h : hive) : intact h -> exists a, into_archive order h = Some a /\ try_from_archive order a = inr (forget h).
Proof.
  intros I. destruct (stored_ops h I) as (a & ops & E & Ea & Hk & Hc). exists a. split; [exact E|].
  assert (Eo : ar_ops a = map stored_op ops) by (rewrite Ea; reflexivity). unfold try_from_archive. rewrite Eo.
  destruct (load_ops_all a ops ops [] ∅ ∅) as (ds & rs & El & Ld & Lr).
  - reflexivity.
  - split; intros s x; rewrite lookup_empty; (split; [discriminate|intros [Hx _]; inversion Hx]).
  - intros x y Hx Hy. apply (in_genuine h I); apply Hk; assumption.
  - exact Hc.
  - intros o p Ho Hp. apply Hk. eapply (in_parents h I); [apply Hk, Ho|exact Hp].
  - intros d Hd. apply Hk, (in_agents h I) in Hd. unfold known_agent in Hd. unfold archived_agent. rewrite Ea. cbn [ar_keys ar_groups ar_docs].
    rewrite !lookup_fmap. rewrite !orb_true_iff in *. rewrite !bool_decide_eq_true in *. rewrite !fmap_is_Some. tauto.
  - rewrite El.
    assert (ds = h_dlgs h) as ->.
    { apply map_eq. intros s. destruct (h_dlgs h !! s) as [d|] eqn:Ed.
      - apply Ld. pose proof (in_dlgs h I _ _ Ed) as Es. split; [|exact Es]. apply Hk. cbn. rewrite Es. exact Ed.
      - destruct (ds !! s) as [d|] eqn:Es; [|reflexivity]. apply Ld in Es as [Hd Es]. apply Hk in Hd. cbn in Hd. congruence. }
    assert (rs = h_revs h) as ->.
    { apply map_eq. intros s. destruct (h_revs h !! s) as [d|] eqn:Ed.
      - apply Lr. pose proof (in_revs h I _ _ Ed) as Es. split; [|exact Es]. apply Hk. cbn. rewrite Es. exact Ed.
      - destruct (rs !! s) as [d|] eqn:Es; [|reflexivity]. apply Lr in Es as [Hd Es]. apply Hk in Hd. cbn in Hd. congruence. }
    assert (G : forall i x, has_group h i x -> load_group order (h_dlgs h) (h_revs h) (archive_group x) = inr (forget_group x)).
    { intros i x Hx. apply load_group_all.
      - eapply (in_filed h I); eauto.
      - intros d Hd. split; [apply (in_heads h I i x (MD d) Hx Hd)|apply (in_roots h I i x d Hx Hd)].
      - intros r Hr. apply (in_heads h I i x (MR r) Hx Hr).
      - intros j xs Ej. destruct (in_members h I i x j xs Hx Ej) as [N M]. split; [exact N|]. intros d Hd. apply (M d Hd). }
    rewrite Ea. cbn [ar_groups ar_docs ar_keys ar_cg ar_pending].
    rewrite load_groups_all by (intros i x Ex; eapply G; left; exact Ex). rewrite load_groups_all by (intros i x Ex; eapply G; right; exact Ex). reflexivity.
Qed.

(** ** Clients that only received events *)
Lemma lineage_chain d p : in_chain d p -> p ∈ d :: lineage d.
Proof.
  induction 1 as [d|d x p S R IH]; [left|]. right. unfold rests_on in S. rewrite (lineage_proof _ _ S). exact IH.
Qed.
Lemma caught_up_intact (doc_content : nat -> ident -> bool) (W : sevent cop -> Prop) (K : ident -> Prop) (T : tame W K) (h : hive) :
  caught_up order doc_content W K W h -> intact h.
Proof.
  intros C. pose proof (cu_inv _ _ _ _ _ _ C) as I.
  assert (G : forall i g, has_group h i g -> exists ops, history order ops g /\ consistent order ops g /\ sound ops /\ gr_id g = i /\ forall o, o ∈ ops <-> has_op h o /\ op_subject o = i).
  { intros i g Hg. destruct (group_ops order O doc_content W K T h i g I Hg) as (ops & H1 & H2 & H3 & H4 & _). exists ops. split; [exact H1|]. split; [exact H2|]. split; [|auto].
    apply (from_sound W K T ops i). intros o Ho. apply H4 in Ho as [Ho Eo]. split; [eapply sup_from, (iv_sup _ _ _ _ _ I); eauto|exact Eo]. }
  assert (Hd : forall i g o, has_group h i g -> known g o -> has_op h o /\ op_subject o = i).
  { intros i g o Hg Ho. destruct (G i g Hg) as (ops & _ & Cs & _ & _ & Hops). apply Hops, (cs_known _ _ _ Cs), Ho. }
  assert (U : genuine (has_op h)).
  { intros x y Hx Hy. apply (from_genuine W (tm_digests _ _ T)); eapply sup_from, (iv_sup _ _ _ _ _ I); eassumption. }
  assert (P : closed (has_op h)).
  { intros o p Ho Hp. destruct (iv_subject _ _ _ _ _ I o Ho) as (g & Hg). destruct (G _ g Hg) as (ops & H1 & _ & _ & _ & Hops). refine (proj1 (proj1 (Hops p) _)). refine (history_closed order ops g H1 o p _ Hp). apply Hops. auto. }
  split.
  - exact (iv_dlgs _ _ _ _ _ I).
  - exact (iv_revs _ _ _ _ _ I).
  - exact U.
  - intros o p. apply P.
  - intros d Ho. pose proof (iv_sup _ _ _ _ _ I _ Ho) as S. inversion S as [x p rs Wx Ok Ep Er Hp Hr Ra Gd E|]. subst d. apply (complete order doc_content W K T h C), Ra.
  - apply revoked_from_above_orderable; [exact P|exact U|]. intros r p Hr Ep. pose proof (iv_sup _ _ _ _ _ I _ Hr) as S. inversion S as [|x t q Wx Ok Et Eq Ht Hq Gr E]. subst r. cbn in Ep. subst q.
    destruct Gr as [Gr _]. apply lineage_chain, Gr.
  - intros i g o Hg Ho. apply (Hd i g o Hg). exists o. split; [exact Ho|apply rtc_refl].
  - intros i g Hg. destruct (G i g Hg) as (ops & _ & Cs & _). apply (cs_filed _ _ _ Cs).
  - intros i g d Hg Ho Ed. destruct (G i g Hg) as (ops & _ & _ & _ & Ei & _). destruct (Hd i g (MD d) Hg) as [_ Es]; [exists (MD d); split; [exact Ho|apply rtc_refl]|].
    cbn in Es. rewrite Ei, <- Es. destruct d; cbn in *; subst; reflexivity.
  - intros i g j l Hg Ej. destruct (G i g Hg) as (ops & H1 & _ & S & _ & Hops). destruct (members_wf order O ops g H1 (proj1 S) (proj2 S) j l Ej) as [N Dl]. split; [exact N|].
    intros d Hin. apply (Hops (MD d)). apply (holds_in order O ops g H1 (proj1 S) (proj2 S)). exists l. rewrite (Dl d Hin). auto.
Qed.

(** ** Going on after coming back *)
Context (doc_content : nat -> ident -> bool) (cop_doc : cop -> ident) (cop_ok : cop -> bool) (cg_receive : kstore -> cg -> cop -> cg * bool).
Notation receive_event := (receive_event order doc_content cop_doc cop_ok cg_receive).
Lemma forget_twice (h : hive) : forget (forget h) = forget h.
Proof. unfold forget. cbn. f_equal; rewrite <- map_fmap_compose; apply map_fmap_ext; reflexivity. Qed.
Lemma forget_env (h : hive) : h_env (forget h) = h_env h.
Proof. unfold h_env, forget. cbn. rewrite <- map_fmap_union, <- map_fmap_compose. apply map_fmap_ext. reflexivity. Qed.
Lemma forget_known (h : hive) i : known_agent (forget h) i = known_agent h i.
Proof.
  unfold known_agent, forget. cbn. rewrite !lookup_fmap. f_equal. f_equal; [f_equal|]; apply bool_decide_ext; apply fmap_is_Some.
Qed.
Lemma forget_resolve_dlg (h : hive) x : resolve_dlg (forget h) x = resolve_dlg h x.
Proof. unfold resolve_dlg. rewrite forget_known. reflexivity. Qed.
Lemma forget_resolve_rev (h : hive) x : resolve_rev (forget h) x = resolve_rev h x.
Proof. reflexivity. Qed.
Lemma forget_receive_delegation e g d : receive_delegation order e (forget_group g) d = receive_delegation order e g d.
Proof. unfold receive_delegation, add_delegation. cbn. destruct (negb _); [reflexivity|]. destruct (match d_proof d with Some _ => _ | None => _ end); [reflexivity|]. destruct (check_chain _ _ _ _ _); reflexivity. Qed.
Lemma forget_receive_revocation e g r : receive_revocation order e (forget_group g) r = receive_revocation order e g r.
Proof. unfold receive_revocation, add_revocation. cbn. destruct (negb _); [reflexivity|]. destruct (match r_proof r with Some _ => _ | None => _ end); reflexivity. Qed.
Lemma forget_delegation_hangs e g d : delegation_hangs order e (forget_group g) d = delegation_hangs order e g d.
Proof. reflexivity. Qed.
Lemma forget_revocation_hangs e g r : revocation_hangs order e (forget_group g) r = revocation_hangs order e g r.
Proof. reflexivity. Qed.
Definition same_step (x y : hive * houtcome) : Prop := forget x.1 = forget y.1 /\ x.2 = y.2.
Lemma forget_put_group (h : hive) i g : forget (put_group h i g) = put_group (forget h) i (forget_group g).
Proof. unfold forget, put_group. cbn. rewrite fmap_insert. reflexivity. Qed.
Lemma forget_put_doc (h : hive) i g : forget (put_doc h i g) = put_doc (forget h) i (forget_group g).
Proof. unfold forget, put_doc. cbn. rewrite fmap_insert. reflexivity. Qed.
Lemma forget_put_dlg (h : hive) d : forget (put_dlg h d) = put_dlg (forget h) d.
Proof. reflexivity. Qed.
Lemma forget_put_rev (h : hive) d : forget (put_rev h d) = put_rev (forget h) d.
Proof. reflexivity. Qed.
Lemma receive_forget (h : hive) x : same_step (receive_event (forget h) x) (receive_event h x).
Proof.
  unfold same_step. destruct x as [o|c|x|x]; cbn [HiveModel.receive_event].
  - unfold receive_key_event. cbn. destruct (PrekeyModel.receive_prekey_op (h_keys h) o) as [k e]. cbn. split; [|reflexivity]. unfold forget, put_keys. cbn. f_equal; rewrite <- map_fmap_compose; apply map_fmap_ext; reflexivity.
  - unfold receive_cgka. cbn. destruct (negb (cop_ok c)); [split; [apply forget_twice|reflexivity]|]. rewrite lookup_fmap. destruct (h_docs h !! cop_doc c); cbn; [|split; [apply forget_twice|reflexivity]].
    destruct (cg_receive (h_keys h) (h_cg h) c) as [y ok]. cbn. split; [|reflexivity]. unfold forget, put_cg. cbn. f_equal; rewrite <- map_fmap_compose; apply map_fmap_ext; reflexivity.
  - unfold receive_dlg. rewrite forget_resolve_dlg, forget_env. cbn [forget h_dlgs h_groups h_docs h_keys]. fold (forget h).
    destruct (bool_decide _); [split; [apply forget_twice|reflexivity]|]. destruct (negb (sd_ok x)); [split; [apply forget_twice|reflexivity]|].
    destruct (resolve_dlg h x) as [er|d]; [split; [apply forget_twice|reflexivity]|]. rewrite !lookup_fmap.
    destruct (h_groups h !! d_subject d) as [g|]; cbn [fmap option_fmap option_map].
    + rewrite forget_delegation_hangs, forget_receive_delegation. destruct (delegation_hangs _ _ _ _); [split; [apply forget_twice|reflexivity]|].
      destruct (receive_delegation _ _ _ _) as [g'|er]; (split; [|reflexivity]); [|apply forget_twice]. cbn [fst]. rewrite !forget_put_dlg, !forget_put_group, forget_twice. reflexivity.
    + destruct (h_docs h !! d_subject d) as [g|]; cbn [fmap option_fmap option_map].
      * rewrite forget_delegation_hangs, forget_receive_delegation. destruct (delegation_hangs _ _ _ _); [split; [apply forget_twice|reflexivity]|].
        destruct (receive_delegation _ _ _ _) as [g'|er]; (split; [|reflexivity]); [|apply forget_twice]. cbn [fst]. rewrite !forget_put_dlg, !forget_put_doc, forget_twice. reflexivity.
      * destruct (ks_indies (h_keys h) !! d_subject d) as [y|].
        -- change (promotion_panics (put_dlg (drop_individual (forget h) (d_subject d)) d) (d_issuer d)) with (promotion_panics (put_dlg (drop_individual h (d_subject d)) d) (d_issuer d)).
           assert (Q : forget (put_dlg (drop_individual (forget h) (d_subject d)) d) = forget (put_dlg (drop_individual h (d_subject d)) d)).
           { unfold forget, put_dlg, drop_individual, put_keys. cbn. f_equal; rewrite <- map_fmap_compose; apply map_fmap_ext; reflexivity. }
           destruct (promotion_panics _ _); split; auto.
        -- destruct (new_group order d) as [g|]; [|split; [apply forget_twice|reflexivity]]. split; [|reflexivity]. cbn [fst].
           destruct (doc_content (sd_content x) (d_subject d)).
           ++ unfold new_document. rewrite !forget_put_doc. f_equal. unfold forget, put_dlg, put_keys. cbn. f_equal; rewrite <- map_fmap_compose; apply map_fmap_ext; reflexivity.
           ++ unfold new_plain_group. rewrite !forget_put_group. f_equal. unfold forget, put_dlg, put_keys. cbn. f_equal; rewrite <- map_fmap_compose; apply map_fmap_ext; reflexivity.
  - unfold receive_rev. rewrite forget_resolve_rev, forget_env. cbn [forget h_revs h_groups h_docs h_keys]. fold (forget h).
    destruct (bool_decide _); [split; [apply forget_twice|reflexivity]|]. destruct (negb (sr_ok x)); [split; [apply forget_twice|reflexivity]|].
    destruct (resolve_rev h x) as [er|r]; [split; [apply forget_twice|reflexivity]|]. rewrite !lookup_fmap.
    destruct (h_groups h !! r_subject r) as [g|]; cbn [fmap option_fmap option_map].
    + rewrite forget_revocation_hangs, forget_receive_revocation. destruct (revocation_hangs _ _ _ _); [split; [apply forget_twice|reflexivity]|].
      destruct (receive_revocation _ _ _ _) as [g'|er]; (split; [|reflexivity]); [|apply forget_twice]. cbn [fst]. rewrite !forget_put_rev, !forget_put_group, forget_twice. reflexivity.
    + destruct (h_docs h !! r_subject r) as [g|]; cbn [fmap option_fmap option_map].
      * rewrite forget_revocation_hangs, forget_receive_revocation. destruct (revocation_hangs _ _ _ _); [split; [apply forget_twice|reflexivity]|].
        destruct (receive_revocation _ _ _ _) as [g'|er]; (split; [|reflexivity]); [|apply forget_twice]. cbn [fst]. rewrite !forget_put_rev, !forget_put_doc, forget_twice. reflexivity.
      * destruct (ks_indies (h_keys h) !! r_subject r) as [y|]; [|split; [apply forget_twice|reflexivity]].
        assert (Q : forget (drop_individual (forget h) (r_subject r)) = forget (drop_individual h (r_subject r))).
        { unfold forget, drop_individual, put_keys. cbn. f_equal; rewrite <- map_fmap_compose; apply map_fmap_ext; reflexivity. }
        change (promotion_panics (drop_individual (forget h) (r_subject r)) (d_issuer (r_revoke r))) with (promotion_panics (drop_individual h (r_subject r)) (d_issuer (r_revoke r))).
        change (h_env (drop_individual (forget h) (r_subject r))) with (h_env (forget h)). change (h_env (drop_individual h (r_subject r))) with (h_env h). rewrite forget_env.
        destruct (promotion_panics _ _); [split; auto|]. destruct (new_group order (r_revoke r)) as [g|]; [|split; auto]. destruct (revocation_hangs _ _ _ _); [split; auto|].
        destruct (receive_revocation _ _ _ _) as [g'|er]; (split; [|reflexivity]); [|exact Q]. cbn [fst]. rewrite !forget_put_rev, Q. reflexivity.
Qed.
Lemma receive_alike (h h' : hive) x : alike h h' -> same_step (receive_event h x) (receive_event h' x).
Proof.
  intros A. pose proof (receive_forget h x) as [A1 A2]. pose proof (receive_forget h' x) as [B1 B2]. unfold alike in A. rewrite A in A1, A2. split; congruence.
Qed.
Lemma pass_alike epoch : forall h h' : hive, alike h h' ->
  match ingest_pass order doc_content cop_doc cop_ok cg_receive h epoch, ingest_pass order doc_content cop_doc cop_ok cg_receive h' epoch with
  | Some (a, l), Some (b, l') => alike a b /\ l = l'
  | None, None => True
  | _, _ => False
  end.
Proof.
  induction epoch as [|x epoch IH]; intros h h' A; cbn [ingest_pass]; [auto|]. pose proof (receive_alike h h' x A) as [S1 S2].
  destruct (receive_event h x) as [a o], (receive_event h' x) as [b o']. cbn in S1, S2. subst o'. specialize (IH a b S1).
  destruct o as [|[]| |]; try exact I; try exact IH;
    (destruct (ingest_pass _ _ _ _ _ a epoch) as [[a' l]|], (ingest_pass _ _ _ _ _ b epoch) as [[b' l']|]; try contradiction; [destruct IH as [IH ->]; auto|exact I]).
Qed.
Lemma forget_pending (h h' : hive) l : alike h h' -> alike (put_pending h l) (put_pending h' l).
Proof. unfold alike, forget, put_pending. cbn. intros [=]. f_equal; assumption. Qed.
Lemma loop_alike fuel : forall (h h' : hive) replayed epoch, alike h h' ->
  match ingest_loop order doc_content cop_doc cop_ok cg_receive fuel h replayed epoch, ingest_loop order doc_content cop_doc cop_ok cg_receive fuel h' replayed epoch with
  | Some (a, l), Some (b, l') => alike a b /\ l = l'
  | None, None => True
  | _, _ => False
  end.
Proof.
  induction fuel as [|fuel IH]; intros h h' replayed epoch A; cbn [ingest_loop]; pose proof (pass_alike epoch h h' A) as P;
    (destruct (ingest_pass _ _ _ _ _ h epoch) as [[a l]|], (ingest_pass _ _ _ _ _ h' epoch) as [[b l']|]; try contradiction; [destruct P as [P <-]|exact I]);
    (assert (Pe : h_pending a = h_pending b) by (injection P; auto)); destruct l as [|y l].
  - rewrite Pe. split; [|reflexivity]. apply forget_pending, P.
  - destruct (_ =? _); [|exact I]. split; [|reflexivity]. apply forget_pending, P.
  - rewrite Pe. split; [|reflexivity]. apply forget_pending, P.
  - destruct (_ =? _); [|apply IH, P]. split; [|reflexivity]. apply forget_pending, P.
Qed.
Lemma ingest_all_alike shuffle batches : forall h h' : hive, alike h h' ->
  match ingest_all order doc_content cop_doc cop_ok cg_receive shuffle h batches, ingest_all order doc_content cop_doc cop_ok cg_receive shuffle h' batches with
  | Some a, Some b => alike a b
  | None, None => True
  | _, _ => False
  end.
Proof.
  induction batches as [|x batches IH]; intros h h' A; cbn [ingest_all]; [exact A|]. unfold ingest, ingest_from.
  assert (Pe : h_pending h = h_pending h') by (injection A; auto). rewrite <- Pe.
  pose proof (loop_alike (length (shuffle (remove_dups (x ++ h_pending h)))) h h' (h_pending h) (shuffle (remove_dups (x ++ h_pending h))) A) as L.
  destruct (ingest_loop _ _ _ _ _ _ h _ _) as [[a l]|], (ingest_loop _ _ _ _ _ _ h' _ _) as [[b l']|]; try contradiction; [|exact I]. apply IH, L.
Qed.
End archive.
