(** Heads, histories and convergence. *)
From Coq Require Import Arith Lia.
From stdpp Require Import base list gmap relations sorting.
From Verif Require Import AccessModel GroupModel CgkaSpec GroupSpec GroupProofs GroupReplay GroupMembers.

Section history.
Context (order : gset nat -> list nat) (Hord : some_order order).

(** ** Rebuilding *)
Lemma replay_split g ops : filed g -> genuine (known g) -> replay_order order g ops ->
  (forall o, o ∈ ops -> known g o) /\ NoDup ops /\ (orderable (known g) -> causal ops) /\ (revoked_once (known g) -> late ops) /\
  (orderable (known g) -> forall o, known g o -> o ∈ ops).
Proof.
  intros F U R. destruct (replay_order_spec order Hord g F U) as (ops' & R' & N & K & T & C & L).
  assert (ops' = ops) as ->.
  { destruct R as (l & all & E & ->), R' as (l' & all' & E' & ->). rewrite E in E'. injection E' as <- <-. reflexivity. }
  split; [exact K|]. split; [exact N|]. split; [|split; [|exact C]].
  - intros O a o b -> p Hp. assert (Hin : p ∈ a ++ o :: b).
    { apply C; [exact O|]. eapply known_parent; [|exact Hp]. apply K, elem_of_app. right. left. }
    apply elem_of_list_lookup in Hin as [j Hj]. assert (Hi : (a ++ o :: b) !! length a = Some o) by (rewrite lookup_app_r, Nat.sub_diag by lia; reflexivity).
    pose proof (T _ _ _ _ Hi Hj Hp) as L'. rewrite lookup_app_l in Hj by lia. eapply elem_of_list_lookup_2. exact Hj.
  - intros O a r b -> d p Hd Ep S. apply elem_of_list_lookup in Hd as [i Hi].
    assert (Hj : (a ++ MR r :: b) !! length a = Some (MR r)) by (rewrite lookup_app_r, Nat.sub_diag by lia; reflexivity).
    pose proof (lookup_lt_Some _ _ _ Hi) as Li. assert (Hi' : (a ++ MR r :: b) !! i = Some (MD d)) by (rewrite lookup_app_l by exact Li; exact Hi).
    pose proof (L O _ _ _ _ _ Hi' Hj Ep (eq_sym S)). lia.
Qed.
Lemma rebuild_play g : filed g -> genuine (known g) -> exists ops s, replay_order order g ops /\
  play_ops order (gr_id g) no_play ops = Some s /\ played (known g) ops s /\
  rebuild order g = Some (Group (gr_id g) (gr_dheads g) (gr_rheads g) (p_members s) (p_active s)).
Proof.
  intros F U. destruct (replay_order_spec order Hord g F U) as (ops & R & N & K & T & C & L). exists ops.
  destruct (played_all order Hord (gr_id g) (known g) (known_closed g) U ops K) as (s & E & I). exists s.
  split; [exact R|]. split; [exact E|]. split; [exact I|].
  destruct R as (l & all & Q & ->). unfold rebuild. rewrite Q, E. reflexivity.
Qed.
Lemma rebuild_keeps g g' : rebuild order g = Some g' -> gr_id g' = gr_id g /\ gr_dheads g' = gr_dheads g /\ gr_rheads g' = gr_rheads g.
Proof.
  unfold rebuild. destruct (reverse_topsort _ _ _) as [[l all]|]; [|discriminate]. destruct (play_ops _ _ _ _); [|discriminate].
  intros [= <-]. auto.
Qed.
Lemma rebuild_known g g' o : rebuild order g = Some g' -> known g' o <-> known g o.
Proof.
  intros E. destruct (rebuild_keeps _ _ E) as (_ & E1 & E2). unfold known, is_head. rewrite E1, E2. reflexivity.
Qed.
Lemma rebuild_idem g g' : rebuild order g = Some g' -> rebuild order g' = Some g'.
Proof.
  intros E. destruct (rebuild_keeps _ _ E) as (E0 & E1 & E2). unfold rebuild in *. rewrite E0, E1, E2.
  destruct (reverse_topsort _ _ _) as [[l all]|]; [|discriminate]. destruct (play_ops _ _ _ _); [|discriminate].
  injection E as <-. reflexivity.
Qed.
Lemma rebuild_filed g g' : rebuild order g = Some g' -> filed g -> filed g'.
Proof. intros E. destruct (rebuild_keeps _ _ E) as (_ & E1 & E2). unfold filed. rewrite E1, E2. auto. Qed.

(** ** Heads *)
Lemma dlg_eqb_eq P a b : genuine P -> P (MD a) -> P (MD b) -> dlg_eqb a b = true -> a = b.
Proof.
  intros U A B E. unfold dlg_eqb in E. apply andb_true_iff in E as [_ E]. apply Nat.eqb_eq in E.
  assert (Q : MD a = MD b) by (apply U; auto). injection Q as ->. reflexivity.
Qed.
Lemma rev_eqb_eq P a b : genuine P -> P (MR a) -> P (MR b) -> rev_eqb a b = true -> a = b.
Proof.
  intros U A B E. unfold rev_eqb in E. apply andb_true_iff in E as [_ E]. apply Nat.eqb_eq in E.
  assert (Q : MR a = MR b) by (apply U; auto). injection Q as ->. reflexivity.
Qed.
Lemma rev_eqb_refl a : rev_eqb a a = true.
Proof. unfold rev_eqb. rewrite !Nat.eqb_refl. reflexivity. Qed.
Lemma zip_revs P (l l' : list rev) : genuine P -> (forall r, r ∈ l -> P (MR r)) -> (forall r, r ∈ l' -> P (MR r)) -> length l = length l' ->
  forallb (fun x => rev_eqb x.1 x.2) (zip l l') = true -> l = l'.
Proof.
  intros U. revert l'. induction l as [|a l IH]; intros [|b l'] A B L E; try discriminate; [reflexivity|]. cbn in E. apply andb_true_iff in E as [E1 E2].
  f_equal; [eapply rev_eqb_eq; eauto; [apply A|apply B]; left|]. apply IH; auto.
  - intros r H. apply A. right. exact H.
  - intros r H. apply B. right. exact H.
Qed.
Lemma payload_eq P a b : closed P -> genuine P -> distinct_grants P -> P (MD a) -> P (MD b) -> payload_eqb a b = true -> a = b.
Proof.
  intros C U D Pa Pb E. unfold payload_eqb in E. rewrite !andb_true_iff in E. destruct E as [[[[[E1 E2] E3] E4] E5] E6].
  apply D; auto.
  - apply Nat.eqb_eq, E1.
  - apply bool_decide_eq_true in E2. exact E2.
  - destruct (d_proof a) as [p|] eqn:Qa, (d_proof b) as [q|] eqn:Qb; try discriminate; [|reflexivity]. f_equal.
    eapply dlg_eqb_eq; [exact U| | |exact E3]; (eapply C; [|apply proof_parent; eassumption]; assumption).
  - eapply zip_revs; [exact U| | |apply Nat.eqb_eq, E4|exact E5].
    + intros r H. eapply C; [exact Pa|]. cbn. apply elem_of_app. right. apply elem_of_list_fmap. eauto.
    + intros r H. eapply C; [exact Pb|]. cbn. apply elem_of_app. right. apply elem_of_list_fmap. eauto.
  - apply Nat.eqb_eq, E6.
Qed.
Lemma payload_eqb_refl a : payload_eqb a a = true.
Proof.
  unfold payload_eqb. rewrite !Nat.eqb_refl, bool_decide_eq_true_2 by reflexivity. cbn.
  assert (Z : forallb (fun x : rev * rev => rev_eqb x.1 x.2) (zip (d_after a) (d_after a)) = true).
  { induction (d_after a) as [|r l IH]; [reflexivity|]. cbn. rewrite rev_eqb_refl, IH. reflexivity. }
  rewrite Z. destruct (d_proof a) as [p|]; [unfold dlg_eqb; rewrite !Nat.eqb_refl|]; reflexivity.
Qed.
Lemma ancestor_spec P a b : closed P -> genuine P -> distinct_grants P -> P (MD a) -> P (MD b) -> is_ancestor_of a b = true <-> a ∈ lineage b.
Proof.
  intros C U D Pa Pb. unfold is_ancestor_of. rewrite existsb_exists. split.
  - intros (p & Hp & E). apply elem_of_list_In in Hp. assert (p = a) as ->; [|exact Hp].
    eapply payload_eq; eauto. eapply lineage_in; [exact C|exact Pb|right; exact Hp].
  - intros H. exists a. split; [apply elem_of_list_In, H|apply payload_eqb_refl].
Qed.

(** The fold over the heads. *)
Definition head_step (d : dlg) (hs : gmap sig dlg) (h : dlg) : gmap sig dlg :=
  let hs := if is_ancestor_of d h then hs else <[d_sig d := d]> hs in
  if is_ancestor_of h d then delete (d_sig h) hs else hs.
Lemma head_step_lookup d hs h x :
  head_step d hs h !! x = if is_ancestor_of h d && (d_sig h =? x) then None
                          else if negb (is_ancestor_of d h) && (d_sig d =? x) then Some d else hs !! x.
Proof.
  unfold head_step. cbv zeta.
  assert (I : forall b : bool, (if b then hs else <[d_sig d := d]> hs) !! x = if negb b && (d_sig d =? x) then Some d else hs !! x).
  { intros []; [reflexivity|]. cbn. destruct (Nat.eqb_spec (d_sig d) x) as [->|N]; [apply lookup_insert|apply lookup_insert_ne, N]. }
  destruct (is_ancestor_of h d); cbn [andb]; [|apply I].
  destruct (Nat.eqb_spec (d_sig h) x) as [->|N]; [apply lookup_delete|]. rewrite lookup_delete_ne by exact N. apply I.
Qed.
Lemma head_fold d L hs : (forall h, h ∈ L -> d_sig h = d_sig d -> is_ancestor_of h d = false) ->
  (forall x y, foldl (head_step d) hs L !! x = Some y -> (y = d /\ x = d_sig d) \/ hs !! x = Some y) /\
  (forall x y, hs !! x = Some y -> x <> d_sig d -> (forall h, h ∈ L -> d_sig h = x -> is_ancestor_of h d = false) -> foldl (head_step d) hs L !! x = Some y) /\
  ((exists h, h ∈ L /\ is_ancestor_of d h = false) \/ hs !! d_sig d = Some d -> foldl (head_step d) hs L !! d_sig d = Some d).
Proof.
  revert hs. induction L as [|h L IH]; intros hs A; cbn [foldl].
  - split; [auto|]. split; [auto|]. intros [(h & H & _)|H]; [inversion H|exact H].
  - destruct (IH (head_step d hs h)) as (I1 & I2 & I3); [intros h' H'; apply A; right; exact H'|]. split; [|split].
    + intros x y E. apply I1 in E as [E|E]; [auto|]. rewrite head_step_lookup in E. destruct (_ && _); [discriminate|].
      destruct (negb _ && _) eqn:B; [|auto]. apply andb_true_iff in B as [_ B]. apply Nat.eqb_eq in B. injection E as <-. auto.
    + intros x y E N Ha. apply I2; [|exact N|intros h' H'; apply Ha; right; exact H']. rewrite head_step_lookup.
      destruct (Nat.eqb_spec (d_sig h) x) as [Q|Q].
      * rewrite (Ha h) by (exact Q || left). cbn. destruct (Nat.eqb_spec (d_sig d) x); [congruence|]. rewrite andb_false_r. exact E.
      * rewrite andb_false_r. destruct (Nat.eqb_spec (d_sig d) x); [congruence|]. rewrite andb_false_r. exact E.
    + assert (K : forall b, (b = true -> is_ancestor_of d h = false) -> (b = false -> hs !! d_sig d = Some d) -> head_step d hs h !! d_sig d = Some d).
      { intros b B1 B2. rewrite head_step_lookup. destruct (Nat.eqb_spec (d_sig h) (d_sig d)) as [Q|Q].
        - rewrite (A h) by (exact Q || left). cbn. rewrite Nat.eqb_refl, andb_true_r. destruct b; [rewrite B1 by reflexivity; reflexivity|]. rewrite B2 by reflexivity. destruct (negb _); reflexivity.
        - rewrite andb_false_r, Nat.eqb_refl, andb_true_r. destruct b; [rewrite B1 by reflexivity; reflexivity|]. rewrite B2 by reflexivity. destruct (negb _); reflexivity. }
      intros [(h' & H & N)|E].
      * apply elem_of_cons in H as [->|H]; [|apply I3; left; eauto]. apply I3. right. apply (K true); [auto|discriminate].
      * apply I3. right. apply (K false); [discriminate|auto].
Qed.
Lemma not_own_lineage d : d ∉ lineage d.
Proof. intros H. apply lineage_rtc, tc_size in H. lia. Qed.

(** What a delegation does to the known operations. *)
Lemma add_known g d m a P : closed P -> genuine P -> distinct_grants P -> filed g -> gr_dheads g <> ∅ ->
  (forall o, known g o -> P o) -> P (MD d) ->
  let g' := Group (gr_id g) (insert_dhead order (gr_dheads g) d) (drop_rheads (gr_rheads g) d) m a in
  filed g' /\ gr_dheads g' <> ∅ /\ forall o, known g' o <-> known g o \/ rtc depends_on (MD d) o.
Proof.
  intros C U D F Ne K Pd g'. set (L := omap (gr_dheads g !!.) (order (dom (gr_dheads g)))).
  assert (HL : forall h, h ∈ L <-> gr_dheads g !! d_sig h = Some h).
  { intros h. unfold L. rewrite elem_of_list_omap. split.
    - intros (x & _ & E). rewrite (proj1 F _ _ E). exact E.
    - intros E. exists (d_sig h). split; [apply order_dom; eauto|exact E]. }
  assert (HP : forall h, h ∈ L -> P (MD h)). { intros h H. apply K. exists (MD h). split; [apply HL, H|apply rtc_refl]. }
  assert (Hself : forall h, h ∈ L -> d_sig h = d_sig d -> is_ancestor_of h d = false).
  { intros h H S. assert (Q : MD h = MD d) by (apply U; auto). injection Q as ->.
    destruct (is_ancestor_of d d) eqn:E; [|reflexivity]. apply (ancestor_spec P) in E; auto. destruct (not_own_lineage _ E). }
  destruct (head_fold d L (gr_dheads g) Hself) as (I1 & I2 & I3).
  change (foldl (head_step d) (gr_dheads g) L) with (gr_dheads g') in I1, I2, I3.
  assert (Hlast : gr_dheads g' !! d_sig d = Some d \/ forall h, h ∈ L -> d ∈ lineage h).
  { destruct (decide (Exists (fun h => is_ancestor_of d h = false) L)) as [X|X].
    - left. apply I3. left. apply Exists_exists in X. exact X.
    - right. intros h H. apply (ancestor_spec P); auto. destruct (is_ancestor_of d h) eqn:E; [reflexivity|]. exfalso. apply X, Exists_exists. eauto. }
  assert (Hkeep : forall h, h ∈ L -> gr_dheads g' !! d_sig h = Some h \/ (h ∈ lineage d /\ gr_dheads g' !! d_sig d = Some d)).
  { intros h H. destruct (is_ancestor_of h d) eqn:E.
    - right. apply (ancestor_spec P) in E; auto. split; [exact E|]. destruct Hlast as [X|X]; [exact X|exfalso].
      specialize (X h H). apply lineage_rtc, tc_size in X, E. lia.
    - destruct (decide (d_sig h = d_sig d)) as [S|S].
      + assert (Q : MD h = MD d) by (apply U; auto). injection Q as ->. left. apply I3. right. apply HL, H.
      + left. apply I2; [apply HL, H|exact S|]. intros h' H' S'. assert (Q : MD h' = MD h) by (apply U; auto). injection Q as ->. exact E. }
  split; [|split].
  - split.
    + intros x y E. apply I1 in E as [[-> ->]|E]; [reflexivity|apply (proj1 F _ _ E)].
    + intros x r E. apply map_filter_lookup_Some in E as [E _]. apply (proj2 F _ _ E).
  - intros Z. apply map_choose in Ne as (x & h & E). assert (Hh : h ∈ L) by (apply HL; rewrite (proj1 F _ _ E); exact E).
    apply Hkeep in Hh as [Q|[_ Q]]; rewrite Z in Q; rewrite lookup_empty in Q; discriminate.
  - intros o. split.
    + intros (h & Hh & R). destruct h as [h|r]; cbn in Hh.
      * apply I1 in Hh as [[-> _]|Hh]; [auto|]. left. exists (MD h). auto.
      * apply map_filter_lookup_Some in Hh as [Hh _]. left. exists (MR r). auto.
    + assert (Kd : forall o, rtc depends_on (MD d) o -> known g' o).
      { intros o' R. destruct Hlast as [X|X]; [exists (MD d); auto|]. apply map_choose in Ne as (x & h & E).
        assert (Hh : h ∈ L) by (apply HL; rewrite (proj1 F _ _ E); exact E). pose proof (X h Hh) as Y. apply lineage_rtc in Y.
        destruct (Hkeep h Hh) as [Q|[Q _]]; [|apply lineage_rtc, tc_size in Q; apply tc_size in Y; lia].
        exists (MD h). split; [exact Q|]. eapply rtc_transitive; [apply tc_rtc, Y|exact R]. }
      intros [(h & Hh & R)|R]; [|auto]. destruct h as [h|r]; cbn in Hh.
      * apply HL in Hh. destruct (Hkeep h Hh) as [Q|[Q _]]; [exists (MD h); auto|]. apply Kd. eapply rtc_transitive; [apply tc_rtc, lineage_rtc, Q|exact R].
      * destruct (existsb (fun x => rev_eqb x r) (d_after d)) eqn:E.
        -- apply existsb_exists in E as (r' & Hr & E). apply elem_of_list_In in Hr.
           assert (Dr : depends_on (MD d) (MR r')) by (unfold depends_on; cbn; apply elem_of_app; right; apply elem_of_list_fmap; eauto).
           assert (r' = r) as ->. { eapply (rev_eqb_eq P); [exact U|eapply C; [exact Pd|exact Dr]|apply K; exists (MR r); split; [exact Hh|apply rtc_refl]|exact E]. }
           apply Kd. eapply rtc_l; [exact Dr|exact R].
        -- exists (MR r). split; [|exact R]. cbn. apply map_filter_lookup_Some. auto.
Qed.
Lemma add_known_rev g r m a P : genuine P -> filed g -> (forall o, known g o -> P o) -> P (MR r) ->
  let g' := Group (gr_id g) (gr_dheads g) (<[r_sig r := r]> (gr_rheads g)) m a in
  filed g' /\ forall o, known g' o <-> known g o \/ rtc depends_on (MR r) o.
Proof.
  intros U F K Pr g'. split.
  - split; [apply (proj1 F)|]. intros x y E. cbn in E. apply lookup_insert_Some in E as [[<- <-]|[_ E]]; [reflexivity|apply (proj2 F _ _ E)].
  - intros o. split.
    + intros (h & Hh & R). destruct h as [h|x]; cbn in Hh; [left; exists (MD h); auto|].
      apply lookup_insert_Some in Hh as [[_ ->]|[_ Hh]]; [auto|]. left. exists (MR x). auto.
    + intros [(h & Hh & R)|R]; [|exists (MR r); split; [apply lookup_insert|exact R]]. destruct h as [h|x]; cbn in Hh; [exists (MD h); auto|].
      exists (MR x). split; [|exact R]. cbn. destruct (decide (r_sig r = r_sig x)) as [Q|Q]; [|rewrite lookup_insert_ne; auto].
      assert (E : MR r = MR x) by (apply U; [exact Pr|apply K; exists (MR x); split; [exact Hh|apply rtc_refl]|exact Q]). injection E as ->. apply lookup_insert.
Qed.

(** ** Histories *)
Lemma accepted_delegation e g d g' : receive_delegation order e g d = GOk g' ->
  d_subject d = gr_id g /\ (d_proof d = None -> d_issuer d = gr_id g) /\ check_chain order e (d_can d) d (lineage d) = None /\
  rebuild order (Group (gr_id g) (insert_dhead order (gr_dheads g) d) (drop_rheads (gr_rheads g) d) (gr_members g) (gr_active g)) = Some g'.
Proof.
  unfold receive_delegation, rebuilt, add_delegation. destruct (Nat.eqb_spec (d_subject d) (gr_id g)) as [S|S]; cbn [negb]; [|discriminate].
  destruct (d_proof d) as [p|].
  - destruct (check_chain _ _ _ _ _); [discriminate|]. destruct (rebuild _ _); [|discriminate]. intros [= <-]. repeat split; [exact S|discriminate].
  - destruct (Nat.eqb_spec (d_issuer d) (gr_id g)) as [I|I]; cbn [negb]; [|discriminate].
    destruct (check_chain _ _ _ _ _); [discriminate|]. destruct (rebuild _ _); [|discriminate]. intros [= <-]. auto.
Qed.
Lemma accepted_revocation e g r g' : receive_revocation order e g r = GOk g' ->
  r_subject r = gr_id g /\
  match r_proof r with
  | Some p => (dlg_eqb (r_revoke r) p = true \/ is_descendant_of (r_revoke r) p = true \/
               is_transitive_member_of order e (d_delegate p) (r_issuer r) (d_can (r_revoke r)) = true) /\
              check_chain order e (d_can p) p (lineage p) = None
  | None => r_issuer r = gr_id g
  end /\
  rebuild order (Group (gr_id g) (gr_dheads g) (<[r_sig r := r]> (gr_rheads g)) (gr_members g) (gr_active g)) = Some g'.
Proof.
  unfold receive_revocation, rebuilt, add_revocation. destruct (Nat.eqb_spec (r_subject r) (gr_id g)) as [S|S]; cbn [negb]; [|discriminate].
  destruct (r_proof r) as [p|].
  - destruct (dlg_eqb _ _) eqn:E1; cbn [negb andb];
      [|destruct (is_descendant_of _ _) eqn:E2; cbn [negb andb];
        [|destruct (is_transitive_member_of _ _ _ _ _) eqn:E3; cbn [negb andb]; [|discriminate]]];
      (destruct (check_chain _ _ _ _ _); [discriminate|]); (destruct (rebuild _ _); [|discriminate]); intros [= <-]; auto 10.
  - destruct (Nat.eqb_spec (r_issuer r) (gr_id g)) as [I|I]; cbn [negb]; [|discriminate].
    destruct (rebuild _ _); [|discriminate]. intros [= <-]. auto.
Qed.
Record consistent (ops : list mop) (g : group) : Prop := {
  cs_filed : filed g;
  cs_heads : gr_dheads g <> ∅;
  cs_known : forall o, known g o <-> o ∈ ops;
  cs_built : rebuild order g = Some g;
  cs_subject : forall d, MD d ∈ ops -> d_subject d = gr_id g
}.
Lemma history_closed ops g : history order ops g -> closed (fun o => o ∈ ops).
Proof.
  induction 1 as [id ps content g N ND E|d g E1 E2 E|e ops g d g' H IH Hp E|e ops g r g' H IH Hp E]; intros o p Ho Hin.
  - apply elem_of_list_fmap in Ho as (x & -> & _). cbn in Hin. inversion Hin.
  - apply elem_of_list_singleton in Ho as ->. cbn in Hin. rewrite E1, E2 in Hin. inversion Hin.
  - apply elem_of_cons in Ho as [->|Ho]; right; [auto|eapply IH; eauto].
  - apply elem_of_cons in Ho as [->|Ho]; right; [auto|eapply IH; eauto].
Qed.
Lemma rtc_in P a b : closed P -> P a -> rtc depends_on a b -> P b.
Proof. intros C A R. induction R as [|a b c S R IH]; [exact A|]. apply IH. eapply C; eauto. Qed.
Lemma history_consistent ops g : history order ops g -> genuine (fun o => o ∈ ops) -> distinct_grants (fun o => o ∈ ops) -> consistent ops g.
Proof.
  intros H. pose proof (history_closed _ _ H) as C. induction H as [id ps content g N ND E|d g E1 E2 E|e ops g d g' H IH Hp E|e ops g r g' H IH Hp E]; intros U D.
  - assert (F : forall x y, (list_to_map (map (fun x => (x.2, Dlg x.2 id x.1 Admin None [] content)) ps) : gmap sig dlg) !! x = Some y <->
      exists z, z ∈ ps /\ x = z.2 /\ y = Dlg z.2 id z.1 Admin None [] content).
    { intros x y. rewrite <- elem_of_list_to_map.
      - rewrite elem_of_list_fmap. split; [intros (z & [= -> ->] & Hz); eauto|intros (z & Hz & -> & ->); exists z; auto].
      - change (NoDup ((fun x : sig * dlg => x.1) <$> ((fun x => (x.2, Dlg x.2 id x.1 Admin None [] content)) <$> ps))). rewrite <- list_fmap_compose. exact ND. }
    set (g0 := Group id (list_to_map (map (fun x => (x.2, Dlg x.2 id x.1 Admin None [] content)) ps)) ∅ ∅ ∅) in *.
    assert (F0 : filed g0). { split; [intros x y Q; apply F in Q as (z & _ & -> & ->); reflexivity|intros x y Q; cbn in Q; rewrite lookup_empty in Q; discriminate]. }
    unfold generate_group in E. fold g0 in E. destruct (rebuild_keeps _ _ E) as (Q0 & Q1 & Q2). constructor.
    + eapply rebuild_filed; eauto.
    + rewrite Q1. intros Z. destruct ps as [|z ps]; [contradiction|]. assert (Y : gr_dheads g0 !! z.2 = Some (Dlg z.2 id z.1 Admin None [] content)) by (apply F; exists z; split; [left|auto]).
      rewrite Z, lookup_empty in Y. discriminate.
    + intros o. rewrite (rebuild_known _ _ _ E). split.
      * intros (h & Hh & R). destruct h as [d|r]; cbn in Hh; [|rewrite lookup_empty in Hh; discriminate]. apply F in Hh as (z & Hz & _ & ->).
        inversion R as [|? y ? S]; subst; [|unfold depends_on in S; cbn in S; inversion S]. apply elem_of_list_fmap. eauto.
      * intros Ho. apply elem_of_list_fmap in Ho as (z & -> & Hz). eexists. split; [|apply rtc_refl]. apply F. exists z. auto.
    + eapply rebuild_idem, E.
    + intros d Hd. apply elem_of_list_fmap in Hd as (z & [= ->] & Hz). rewrite Q0. reflexivity.
  - set (g0 := Group (d_issuer d) {[ d_sig d := d ]} ∅ ∅ ∅) in *. unfold new_group in E. fold g0 in E. destruct (rebuild_keeps _ _ E) as (Q0 & Q1 & Q2).
    assert (F0 : filed g0). { split; [intros x y Q; cbn in Q; apply lookup_singleton_Some in Q as [<- <-]; reflexivity|intros x y Q; cbn in Q; rewrite lookup_empty in Q; discriminate]. }
    constructor.
    + eapply rebuild_filed; eauto.
    + rewrite Q1. intros Z. assert (Y : gr_dheads g0 !! d_sig d = Some d) by apply lookup_singleton. rewrite Z, lookup_empty in Y. discriminate.
    + intros o. rewrite (rebuild_known _ _ _ E), elem_of_list_singleton. split.
      * intros (h & Hh & R). destruct h as [d'|r]; cbn in Hh; [|rewrite lookup_empty in Hh; discriminate]. apply lookup_singleton_Some in Hh as [_ <-].
        inversion R as [|? y ? S]; subst; [reflexivity|]. unfold depends_on in S. cbn in S. rewrite E1, E2 in S. inversion S.
      * intros ->. exists (MD d). split; [apply lookup_singleton|apply rtc_refl].
    + eapply rebuild_idem, E.
    + intros d' Hd. apply elem_of_list_singleton in Hd. injection Hd as ->. rewrite Q0. cbn. destruct d; cbn in *. subst. reflexivity.
  - assert (U' : genuine (fun o => o ∈ ops)) by (intros a b A B; apply U; right; assumption).
    assert (D' : distinct_grants (fun o => o ∈ ops)) by (intros a b A B; apply D; right; assumption).
    specialize (IH (history_closed _ _ H) U' D'). destruct IH as [F Ne K B S]. destruct (accepted_delegation _ _ _ _ E) as (Sd & _ & _ & R).
    destruct (add_known g d (gr_members g) (gr_active g) (fun o => o ∈ MD d :: ops) C U D F Ne) as (F' & Ne' & K').
    { intros o Ko. right. apply K, Ko. } { left. }
    destruct (rebuild_keeps _ _ R) as (Q0 & Q1 & Q2). constructor.
    + eapply rebuild_filed; eauto.
    + rewrite Q1. exact Ne'.
    + intros o. rewrite (rebuild_known _ _ _ R), K', K, elem_of_cons. split.
      * intros [A|A]; [auto|]. inversion A as [|? y ? S1 S2]; subst; [auto|]. right. apply (rtc_in (fun x => x ∈ ops) y o); [exact (history_closed _ _ H)|apply Hp, S1|exact S2].
      * intros [->|A]; [right; apply rtc_refl|auto].
    + eapply rebuild_idem, R.
    + intros x Hx. rewrite Q0. cbn. apply elem_of_cons in Hx as [[= ->]|Hx]; [exact Sd|apply S, Hx].
  - assert (U' : genuine (fun o => o ∈ ops)) by (intros a b A B; apply U; right; assumption).
    assert (D' : distinct_grants (fun o => o ∈ ops)) by (intros a b A B; apply D; right; assumption).
    specialize (IH (history_closed _ _ H) U' D'). destruct IH as [F Ne K B S]. destruct (accepted_revocation _ _ _ _ E) as (Sd & _ & R).
    destruct (add_known_rev g r (gr_members g) (gr_active g) (fun o => o ∈ MR r :: ops) U F) as (F' & K').
    { intros o Ko. right. apply K, Ko. } { left. }
    destruct (rebuild_keeps _ _ R) as (Q0 & Q1 & Q2). constructor.
    + eapply rebuild_filed; eauto.
    + rewrite Q1. exact Ne.
    + intros o. rewrite (rebuild_known _ _ _ R), K', K, elem_of_cons. split.
      * intros [A|A]; [auto|]. inversion A as [|? y ? S1 S2]; subst; [auto|]. right. apply (rtc_in (fun x => x ∈ ops) y o); [exact (history_closed _ _ H)|apply Hp, S1|exact S2].
      * intros [->|A]; [right; apply rtc_refl|auto].
    + eapply rebuild_idem, R.
    + intros x Hx. rewrite Q0. cbn. apply elem_of_cons in Hx as [Q|Hx]; [discriminate|apply S, Hx].
Qed.
End history.
