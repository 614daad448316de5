(** Lemmas behind the theorems of [TeamProps]. *)
From Coq Require Import Arith Lia.
From stdpp Require Import base list gmap relations.
From Verif Require Import ResModel KeysModel TreeModel TreeSpec TreeOps OpsModel OpsSpec OpsProofs CgkaModel CgkaSpec CgkaProofs CgkaReplay CgkaConverge NetSpec NetProofs NetKeys NetAgree NetInv NetRun
  GrowSpec GrowNet GrowReceive ReadSpec ReadTree ReadWorld ReadNet ReadMade ReadPropsProofs ReadRoster SecrecySpec TurnSecretSpec ShutSpec ShutPropsProofs EffectSpec EffectPropsProofs AudienceProofs.
From Verif Require Import AccessModel GroupModel PrekeyModel HiveModel DocModel TransactModel DocSpec TeamSpec TeamProofs TeamEffects.
From Verif Require DocProofs.

Section net.
Context (ho : nat -> gset digest -> list digest) (ro : nat -> gset (member_id * nat) -> list (member_id * nat)).
Context (HH : forall r, some_order (ho r)) (HR : forall r, some_order (ro r)).
Notation reach := (net_reachable ho ro).
Notation step := (net_step ho ro).

Lemma ops_down n n' : reach n -> rtc step n n' -> orderly (n_ops n') -> orderly (n_ops n).
Proof. intros R S Od. eapply orderly_down; [exact (steps_ops ho ro _ _ S)|apply (no_ops _ _ _ (net_reachable_ok ho ro HH HR _ R))|exact Od]. Qed.
Lemma unknown n r c h : reach n -> n_reps n !! r = Some c -> n_ops n !! h = None -> g_ops (c_graph c) !! h = None.
Proof.
  intros R E U. pose proof (net_reachable_ok ho ro HH HR _ R) as K. destruct (g_ops (c_graph c) !! h) as [o|] eqn:G; [|reflexivity].
  rewrite (lookup_weaken _ _ _ _ G (no_sub _ _ _ K _ _ E)) in U. discriminate.
Qed.
Lemma member_dec n r c m : reach n -> orderly (n_ops n) -> n_reps n !! r = Some c -> member (g_ops (c_graph c)) m \/ ~ member (g_ops (c_graph c)) m.
Proof.
  intros R Od E. pose proof (contains_member ho ro HH HR n R Od r c m E) as Ci. destruct (contains_id (c_tree c) m); [left; apply Ci; reflexivity|right; intros X; apply Ci in X; discriminate].
Qed.
Lemma added_exact n r c m pk h c' out : reach n -> orderly (n_ops n) -> n_reps n !! r = Some c -> n_ops n !! h = None ->
  cgka_add (ho r) (ro r) c m pk h = (c', Ok out) -> forall z, member (g_ops (c_graph c')) z <-> member (g_ops (c_graph c)) z \/ z = m.
Proof.
  intros R Od E U Q z. destruct (every_add ho ro HH HR n R Od r c m pk h E (unknown n r c h R E U)) as [Yes No].
  destruct (member_dec n r c m R Od E) as [M|M].
  - rewrite (Yes M) in Q. apply pair_equal_spec in Q as [<- _]. split; [auto|]. intros [X| ->]; assumption.
  - destruct (No M) as (c2 & op & i & ps & qs & Q2 & _ & _ & _ & Mb). rewrite Q2 in Q. apply pair_equal_spec in Q as [<- _]. rewrite Mb. tauto.
Qed.
(** Removing somebody fails only if nobody else is left. *)
Lemma alone n r c m : reach n -> orderly (n_ops n) -> n_reps n !! r = Some c -> member (g_ops (c_graph c)) m ->
  (exists z, z <> m /\ member (g_ops (c_graph c)) z) \/ (forall z, member (g_ops (c_graph c)) z <-> z = m).
Proof.
  intros R Od E M. destruct (now_describes ho ro HH HR n R Od r c E) as (h1 & Ds1 & _).
  destruct (set_choose_or_empty (dom (t_ids (c_tree c)) ∖ {[m]})) as [[z Hz]|Em'].
  - left. apply elem_of_difference in Hz as [Hz N]. exists z. split; [intros ->; apply N, elem_of_singleton; reflexivity|]. apply (member_known ho ro HH HR n R r c _ _ z E Ds1). apply elem_of_dom in Hz as [j Hj]. eauto.
  - right. intros z. split; [|intros ->; exact M]. intros Mz. destruct (decide (z = m)) as [Ez|Nz]; [exact Ez|]. exfalso. apply (not_elem_of_empty (C := gset member_id) z). apply Em'.
    apply (member_known ho ro HH HR n R r c _ _ z E Ds1) in Mz as [j Hj]. apply elem_of_difference. split; [apply elem_of_dom; eauto|]. intros X. apply elem_of_singleton in X. contradiction.
Qed.
Lemma removed_exact n r c m h c' out : reach n -> orderly (n_ops n) -> n_reps n !! r = Some c -> n_ops n !! h = None ->
  cgka_remove (ho r) (ro r) c m h = (c', Ok out) -> forall z, member (g_ops (c_graph c')) z <-> member (g_ops (c_graph c)) z /\ z <> m.
Proof.
  intros R Od E U Q z. pose proof (unknown n r c h R E U) as U'. destruct (every_remove ho ro HH HR n R Od r c m h E U') as [No Yes].
  destruct (member_dec n r c m R Od E) as [M|M].
  - destruct (alone n r c m R Od E M) as [Ot|Al].
    + destruct (Yes M Ot) as (c2 & op & i & ks & ps & Q2 & _ & _ & _ & Mb). rewrite Q2 in Q. apply pair_equal_spec in Q as [<- _]. rewrite Mb. tauto.
    + exfalso. pose proof (removed_gone ho ro HH HR n r c m h c' out R Od E U' Q) as Gn. clear Yes No. unfold cgka_remove in Q.
      rewrite (proj2 (contains_member ho ro HH HR n R Od r c m E) M) in Q. cbn [negb] in Q. destruct (maybe_replay (ho r) (ro r) c) as [c1|e| |] eqn:Em; try discriminate.
      pose proof (net_reachable_ok ho ro HH HR _ R) as K. destruct (net_fine ho ro HH HR _ R Od) as [CA F].
      destruct (replayed_describes ho ro HH HR n r c c1 K Od CA E Em) as [h1 Ds1].
      assert (Sz : member_count (c_tree c1) = 1).
      { unfold member_count. rewrite <- size_dom. replace (dom (t_ids (c_tree c1))) with ({[m]} : gset member_id); [apply size_singleton|]. apply leibniz_equiv. intros y. rewrite elem_of_singleton, elem_of_dom.
        rewrite <- (Al y). apply (member_known ho ro HH HR n R r c _ _ y E Ds1). }
      rewrite Sz in Q. discriminate.
  - rewrite (No M) in Q. apply pair_equal_spec in Q as [<- _]. split; [|tauto]. intros X. split; [exact X|]. intros ->. contradiction.
Qed.
Lemma failed_alone n r c m h c' e : reach n -> orderly (n_ops n) -> n_reps n !! r = Some c -> n_ops n !! h = None ->
  cgka_remove (ho r) (ro r) c m h = (c', Err e) -> (forall z, member (g_ops (c_graph c)) z <-> z = m) /\ c_graph c' = c_graph c.
Proof.
  intros R Od E U Q. destruct (every_remove ho ro HH HR n R Od r c m h E (unknown n r c h R E U)) as [No Yes]. split.
  - destruct (member_dec n r c m R Od E) as [M|M]; [|rewrite (No M) in Q; discriminate]. destruct (alone n r c m R Od E M) as [Ot|Al]; [|exact Al].
    destruct (Yes M Ot) as (c2 & op & i & ks & ps & Q2 & _). rewrite Q2 in Q. discriminate.
  - unfold cgka_remove in Q. destruct (negb _); [discriminate|]. destruct (maybe_replay (ho r) (ro r) c) as [c1|e1| |] eqn:Em; try (injection Q as <- _; reflexivity).
    apply maybe_replay_graph in Em as (G & _). destruct (_ =? 1); [injection Q as <- _; exact G|]. destruct (remove_id _ _) as [[t [i ks]]|e2| |]; try discriminate. injection Q as <- _. exact G.
Qed.

(** Runs of additions and removals. *)
Lemma add_keys_exact r l : forall n c hs c' o, reach n -> n_reps n !! r = Some c -> NoDup hs -> (forall y, y ∈ hs -> n_ops n !! y = None) -> orderly (n_ops (moved n r c')) ->
  add_keys (ho r) (ro r) c l hs = (c', Ok o) -> forall z, member (g_ops (c_graph c')) z <-> member (g_ops (c_graph c)) z \/ z ∈ map fst l.
Proof.
  induction l as [|[i pk] l IH]; intros n c hs c' o R E ND U Od Q z.
  - cbn in Q. injection Q as <- _. cbn. rewrite elem_of_nil. tauto.
  - pose proof (proj1 (add_keys_goes ho ro HH HR r _ _ _ _ _ _ R E ND U Q)) as [Gs _]. pose proof (ops_down n _ R Gs Od) as Od0.
    cbn [add_keys] in Q. destruct hs as [|y hs]; [discriminate|]. apply NoDup_cons in ND as [Ny ND].
    destruct (cgka_add (ho r) (ro r) c i pk y) as [c1 x1] eqn:Ea. assert (Uy : n_ops n !! y = None) by (apply U; left).
    assert (S : step n (moved n r c1)) by (eapply ns_add; [exact E|exact Uy|exact Ea]).
    destruct (one_goes ho ro HH HR n r c c1 y R E Uy (weaken_one _ _ _ _ (cgka_add_graph _ _ _ _ _ _ _ _ Ea)) S) as [G1 F1].
    destruct x1 as [o1|e| |]; try discriminate. destruct (add_keys (ho r) (ro r) c1 l hs) as [c2 x2] eqn:Er. destruct x2 as [o2|e| |]; try discriminate. injection Q as <- _.
    pose proof (goes_reach ho ro n r c c1 R G1) as R1.
    assert (U1 : forall y, y ∈ hs -> n_ops (moved n r c1) !! y = None) by (intros z' Hz; apply F1; [intros ->; contradiction|]; apply U; right; exact Hz).
    pose proof (proj1 (add_keys_goes ho ro HH HR r _ _ _ _ _ _ R1 (moved_rep n r c1) ND U1 Er)) as G2.
    rewrite (IH (moved n r c1) c1 hs c2 o2 R1 (moved_rep n r c1) ND U1); [|rewrite moved_moved by apply G2; exact Od|exact Er].
    rewrite (added_exact n r c i pk y c1 o1 R Od0 E Uy Ea z). cbn [map fst]. rewrite elem_of_cons. tauto.
Qed.
Lemma remove_keys_exact r l : forall n c hs c' o, reach n -> n_reps n !! r = Some c -> NoDup hs -> (forall y, y ∈ hs -> n_ops n !! y = None) -> orderly (n_ops (moved n r c')) ->
  remove_keys (ho r) (ro r) c l hs = (c', Ok o) -> forall z, member (g_ops (c_graph c')) z <-> member (g_ops (c_graph c)) z /\ z ∉ l.
Proof.
  induction l as [|i l IH]; intros n c hs c' o R E ND U Od Q z.
  - cbn in Q. injection Q as <- _. rewrite elem_of_nil. tauto.
  - pose proof (remove_keys_goes ho ro HH HR r _ _ _ _ _ _ R E ND U Q) as [Gs _]. pose proof (ops_down n _ R Gs Od) as Od0.
    cbn [remove_keys] in Q. destruct hs as [|y hs]; [discriminate|]. apply NoDup_cons in ND as [Ny ND].
    destruct (cgka_remove (ho r) (ro r) c i y) as [c1 x1] eqn:Ea. assert (Uy : n_ops n !! y = None) by (apply U; left).
    assert (S : step n (moved n r c1)) by (eapply ns_remove; [exact E|exact Uy|exact Ea]).
    destruct (one_goes ho ro HH HR n r c c1 y R E Uy (weaken_one _ _ _ _ (cgka_remove_graph _ _ _ _ _ _ _ Ea)) S) as [G1 F1].
    destruct x1 as [o1|e| |]; try discriminate. destruct (remove_keys (ho r) (ro r) c1 l hs) as [c2 x2] eqn:Er. destruct x2 as [o2|e| |]; try discriminate. injection Q as <- _.
    pose proof (goes_reach ho ro n r c c1 R G1) as R1.
    assert (U1 : forall y, y ∈ hs -> n_ops (moved n r c1) !! y = None) by (intros z' Hz; apply F1; [intros ->; contradiction|]; apply U; right; exact Hz).
    pose proof (remove_keys_goes ho ro HH HR r _ _ _ _ _ _ R1 (moved_rep n r c1) ND U1 Er) as G2.
    rewrite (IH (moved n r c1) c1 hs c2 o2 R1 (moved_rep n r c1) ND U1); [|rewrite moved_moved by apply G2; exact Od|exact Er].
    rewrite (removed_exact n r c i y c1 o1 R Od0 E Uy Ea z), not_elem_of_cons. tauto.
Qed.
(** Removals that fail are passed over: then one is left. *)
Lemma try_remove_keys_exact r l : forall n c hs c' o, reach n -> n_reps n !! r = Some c -> NoDup l -> NoDup hs -> (forall y, y ∈ hs -> n_ops n !! y = None) -> orderly (n_ops (moved n r c')) ->
  try_remove_keys (ho r) (ro r) c l hs = (c', Ok o) ->
  (forall z, member (g_ops (c_graph c')) z <-> member (g_ops (c_graph c)) z /\ z ∉ l) \/ (exists i, i ∈ l /\ member (g_ops (c_graph c)) i /\ (forall z, member (g_ops (c_graph c)) z -> z ∈ l) /\ forall z, member (g_ops (c_graph c')) z <-> z = i).
Proof.
  induction l as [|i l IH]; intros n c hs c' o R E NL ND U Od Q.
  - cbn in Q. injection Q as <- _. left. intros z. rewrite elem_of_nil. tauto.
  - pose proof (try_remove_keys_goes ho ro HH HR r _ _ _ _ _ _ R E ND U Q) as [Gs _]. pose proof (ops_down n _ R Gs Od) as Od0. apply NoDup_cons in NL as [Ni NL].
    cbn [try_remove_keys] in Q. destruct hs as [|y hs]; [discriminate|]. apply NoDup_cons in ND as [Ny ND].
    destruct (cgka_remove (ho r) (ro r) c i y) as [c1 x1] eqn:Ea. assert (Uy : n_ops n !! y = None) by (apply U; left).
    assert (S : step n (moved n r c1)) by (eapply ns_remove; [exact E|exact Uy|exact Ea]).
    destruct (one_goes ho ro HH HR n r c c1 y R E Uy (weaken_one _ _ _ _ (cgka_remove_graph _ _ _ _ _ _ _ Ea)) S) as [G1 F1].
    pose proof (goes_reach ho ro n r c c1 R G1) as R1.
    assert (U1 : forall y, y ∈ hs -> n_ops (moved n r c1) !! y = None) by (intros z' Hz; apply F1; [intros ->; contradiction|]; apply U; right; exact Hz).
    assert (Nx : forall o2, try_remove_keys (ho r) (ro r) c1 l hs = (c', Ok o2) ->
      (forall z, member (g_ops (c_graph c')) z <-> member (g_ops (c_graph c1)) z /\ z ∉ l) \/ (exists i, i ∈ l /\ member (g_ops (c_graph c1)) i /\ (forall z, member (g_ops (c_graph c1)) z -> z ∈ l) /\ forall z, member (g_ops (c_graph c')) z <-> z = i)).
    { intros o2 Er. pose proof (try_remove_keys_goes ho ro HH HR r _ _ _ _ _ _ R1 (moved_rep n r c1) ND U1 Er) as G2.
      apply (IH (moved n r c1) c1 hs c' o2 R1 (moved_rep n r c1) NL ND U1); [rewrite moved_moved by apply G2; exact Od|exact Er]. }
    destruct x1 as [o1|e| |]; try discriminate.
    + destruct (try_remove_keys (ho r) (ro r) c1 l hs) as [c2 x2] eqn:Er. destruct x2 as [o2|e| |]; try discriminate. injection Q as -> _.
      pose proof (removed_exact n r c i y c1 o1 R Od0 E Uy Ea) as Ex. destruct (Nx o2 eq_refl) as [A|(j & Hj & Mj & In & A)].
      * left. intros z. rewrite A, Ex, not_elem_of_cons. tauto.
      * right. exists j. split; [right; exact Hj|]. split; [apply Ex, Mj|]. split; [|exact A]. intros z Mz. destruct (decide (z = i)) as [->|Nz]; [left|right; apply In, Ex; auto].
    + destruct (failed_alone n r c i y c1 e R Od0 E Uy Ea) as [Al Gr]. right. exists i. split; [left|]. split; [apply Al; reflexivity|]. split; [intros z Mz; apply Al in Mz as ->; left|]. destruct (Nx o Q) as [A|(j & Hj & Mj & In & A)].
      * intros z. rewrite A, Gr, Al. split; [tauto|]. intros ->. auto.
      * rewrite Gr in Mj. apply Al in Mj as ->. contradiction.
Qed.

(** Whoever is no member to the knowledge of a replica cannot open what is sealed later. *)
Lemma gone_shuts n r c m n' e (K : secret_key -> Prop) : reach n -> n_reps n !! r = Some c -> ~ member (g_ops (c_graph c)) m ->
  rtc step n n' -> orderly (n_ops n') -> fresh_secrets (n_ops n') -> e ∈ n_cts n' ->
  sealed_after (n_ops n') (g_ops (c_graph c)) m e -> only_of (n_ops n') m K -> closed_to K (n_ops n') e.
Proof.
  intros R E Gone S Od FS He [Kn Ad] HK. pose proof (steps_reachable _ _ _ _ R S) as R2. pose proof (net_reachable_ok ho ro HH HR _ R) as K1.
  assert (Su' : g_ops (c_graph c) ⊆ n_ops n') by (etrans; [exact (no_sub _ _ _ K1 _ _ E)|exact (steps_ops ho ro _ _ S)]).
  apply (outsiders_shut ho ro HH HR n' R2 Od e (fun z => z = m) K FS He); [|exact HK].
  intros z -> (i & a & o & pk & ps & qs & Ba & Ea & Eo & Rm). apply Gone. destruct (Ad a o pk i ps qs Ba Ea Eo) as [o2 Ka].
  exists i, a, o, pk, ps, qs. split; [eauto|]. split; [rewrite (lookup_weaken _ _ _ _ Ka Su') in Ea; congruence|]. split; [exact Eo|]. intros r' o' j ks ps' Hr Er Eor.
  apply (before_same (g_ops (c_graph c)) (n_ops n') r' a); [exact Su'|exact (graph_closed ho ro HH HR _ R r c E)|eauto|].
  eapply Rm; [apply Kn; exact Hr|eapply lookup_weaken; [exact Er|exact Su']|exact Eor].
Qed.
End net.

Section team.
Context (ho : nat -> gset digest -> list digest) (ro : nat -> gset (member_id * nat) -> list (member_id * nat)).
Context (HH : forall r, some_order (ho r)) (HR : forall r, some_order (ro r)).
Notation reach := (net_reachable ho ro).
Notation good := (team_good ho ro).

Lemma no_member m : ~ member ∅ m.
Proof. intros (i & a & o & pk & ps & qs & _ & E & _). rewrite lookup_empty in E. discriminate. Qed.
Lemma in_key_some h d c m : cgka_of h d = Some c -> in_key h d m <-> contains_id (c_tree c) m = true.
Proof. intros E. unfold in_key. rewrite E. split; [intros (x & Q & X); congruence|eauto]. Qed.
Lemma known_some h d c : cgka_of h d = Some c -> known_ops h d = g_ops (c_graph c).
Proof. intros E. unfold known_ops. rewrite E. reflexivity. Qed.
Lemma at_client t r h d c : good t -> tm_clients t !! r = Some h -> cgka_of h d = Some c -> reach (seen_as t d) /\ n_reps (seen_as t d) !! r = Some c.
Proof. intros G E Ec. pose proof (rep_of t d r h E) as Rp. rewrite Ec in Rp. split; [eapply live; eauto|exact Rp]. Qed.
Lemma in_key_member t r h d m : good t -> orderly (tm_ops t d) -> tm_clients t !! r = Some h -> in_key h d m <-> member (known_ops h d) m.
Proof.
  intros G Od E. destruct (cgka_of h d) as [c|] eqn:Ec.
  - destruct (at_client t r h d c G E Ec) as [R Rp]. rewrite (in_key_some _ _ _ _ Ec), (known_some _ _ _ Ec). exact (contains_member ho ro HH HR _ R Od r c m Rp).
  - unfold in_key, known_ops. rewrite Ec. split; [intros (x & Q & _); discriminate|]. intros X. destruct (no_member m X).
Qed.

(** The run of a call on a key has its effect. *)
Lemma ran_exact t r h h' hs Lax j (K : ident -> Prop) : good t -> tm_clients t !! r = Some h -> good (went t r h') -> orderly (tm_ops (went t r h') j) -> unseen t j (hs j) ->
  ran (ho r) (ro r) hs Lax h h' j K ->
  (forall m, in_key h' j m <-> K m) \/ (Lax /\ (forall m, ~ K m) /\ exists x, in_key h j x /\ forall m, in_key h' j m <-> m = x).
Proof.
  intros G E G' Od [ND U] [[Eq Kk]|(c & c' & Ec & Ec' & Run)].
  { left. intros m. rewrite <- Kk. unfold in_key. rewrite Eq. reflexivity. }
  destruct (at_client t r h j c G E Ec) as [R Rp]. assert (E' : tm_clients (went t r h') !! r = Some h') by apply lookup_insert.
  pose proof (went_some t r h' j c' Ec') as W. pose proof (fun m => in_key_member _ _ _ j m G' Od E') as M'. rewrite (known_some _ _ _ Ec') in M'.
  assert (Odn : orderly (n_ops (moved (seen_as t j) r c'))) by (rewrite <- W; exact Od).
  assert (Od0 : orderly (tm_ops t j)).
  { change (orderly (n_ops (seen_as t j))). eapply orderly_down; [|apply (no_ops _ _ _ (net_reachable_ok ho ro HH HR _ R))|exact Odn]. cbn. apply map_union_subseteq_l. }
  pose proof (fun m => in_key_member _ _ _ j m G Od0 E) as M. rewrite (known_some _ _ _ Ec) in M.
  destruct Run as [(l & o & Q & Kk)|[(l & o & Q & Kk)|(l & o & Hl & NL & Q & Kk)]].
  - left. intros m. rewrite Kk, M', M. exact (add_keys_exact ho ro HH HR r l _ _ _ _ _ R Rp ND U Odn Q m).
  - left. intros m. rewrite Kk, M', M. exact (remove_keys_exact ho ro HH HR r l _ _ _ _ _ R Rp ND U Odn Q m).
  - destruct (try_remove_keys_exact ho ro HH HR r l _ _ _ _ _ R Rp NL ND U Odn Q) as [A|(x & Hx & Mx & In & A)].
    + left. intros m. rewrite Kk, M', M. apply A.
    + right. split; [exact Hl|]. split; [intros m Km; apply Kk in Km as [Km N]; apply N, In, M, Km|]. exists x. split; [apply M, Mx|]. intros m. rewrite M'. apply A.
Qed.

(** Sealing by a client is sealing by its replica. *)
Lemma encrypts t r h d ref content preds sk x rng h' e o : good t -> tm_clients t !! r = Some h ->
  hive_encrypt (ho r) (ro r) h d ref content preds sk x rng = (h', DOk (e, o)) ->
  exists c c' s o', cgka_of h d = Some c /\ new_app_secret_for (ho r) (ro r) c ref content preds sk x rng = (c', Ok (s, o')) /\ e = app_encrypt s content /\
    seen_as (wrote (went t r h') d e) d = sent (moved (seen_as t d) r c') [e] /\ reach (seen_as t d) /\ n_reps (seen_as t d) !! r = Some c.
Proof.
  intros G E Q. unfold hive_encrypt in Q. destruct (cgka_of h d) as [c|] eqn:Ec; [|discriminate]. destruct (new_app_secret_for _ _ _ _ _ _ _ _ _) as [c' x'] eqn:N. injection Q as <- Q.
  destruct x' as [[s o']|e'| |]; cbn [of_res] in Q; try discriminate. injection Q as <- _. destruct (at_client t r h d c G E Ec) as [R Rp].
  exists c, c', s, o'. do 3 (split; [first [reflexivity|assumption]|]). split; [|split; assumption].
  assert (Ep : cgka_of (put_cgka h d c') d = Some c') by (rewrite DocProofs.cgka_put, decide_True; reflexivity).
  transitivity (sent (seen_as (went t r (put_cgka h d c')) d) [app_encrypt s content]); [|rewrite (went_some t r _ d c' Ep); reflexivity].
  unfold seen_as, sent, wrote, contents. cbn. rewrite decide_True by reflexivity. reflexivity.
Qed.
End team.
