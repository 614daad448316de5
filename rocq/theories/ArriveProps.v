(** Operations of group keys may arrive in any order (C59): a client that ingests them, in any order and in any batches, with
    anything repeated, knows in the end those whose predecessors it was handed too, and keeps the others for later. *)
From Coq Require Import Arith Lia.
From stdpp Require Import base list gmap relations.
From Verif Require Import ResModel KeysModel TreeModel OpsModel OpsSpec CgkaModel CgkaSpec NetSpec NetProofs NetInv GrowSpec ReadSpec ReadMade.
From Verif Require Import AccessModel GroupModel PrekeyModel HiveModel DocModel DocSpec TeamSpec TeamProofs TeamPropsProofs TeamProps ArriveModel ArriveSpec ArriveProofs.
Notation known_ops := TeamSpec.known_ops.

Section arrive.
Context (order : nat -> gset nat -> list nat) (ho : nat -> gset digest -> list digest) (ro : nat -> gset (member_id * nat) -> list (member_id * nat)).
Context (pick : nat -> client -> ident -> ident -> share_key) (doc_content : nat -> ident -> bool).
Context (HO : forall r, some_order (order r)) (HH : forall r, some_order (ho r)) (HR : forall r, some_order (ro r)).
Notation reachable := (team_reachable order ho ro pick doc_content).
Notation step := (team_step order ho ro pick doc_content).
Notation good_of := (team_reachable_good order ho ro pick doc_content HO HH HR).
Notation ingests r := (ingest_all (order r) doc_content do_doc do_ok (doc_receive (ho r) (ro r))).

(** ** What is known in the end, and what is kept for later, depends on what was handed over, not on the order and
    not on the batches. *)
Theorem C59_any_order t r h shuffle batches (W := fun x => x ∈ h_pending h \/ exists b, b ∈ batches /\ x ∈ b) :
  reachable t -> tm_clients t !! r = Some h -> (forall l, shuffle l ≡ₚ l) -> batches <> [] -> (forall x, W x -> addressed t h x) ->
  exists h' t', ingests r shuffle h batches = Some h' /\ rtc step t t' /\ tm_clients t' !! r = Some h' /\ (forall d, tm_ops t' d = tm_ops t d) /\
    (forall d o, known_ops h' d !! so_hash o = Some o <-> arrives h W d o) /\
    (forall x, ECgka x ∈ h_pending h' <-> W (ECgka x) /\ ~ (opens h (do_op x) /\ arrives h W (do_doc x) (do_op x))) /\
    (forall x, x ∈ h_pending h' -> exists o, x = ECgka o).
Proof.
  intros R E Sh Ne AW. pose proof (good_of t R) as G.
  assert (V0 : going order ho ro pick doc_content t r h W t h).
  { constructor; try reflexivity; auto. intros d x o K. apply ar_known. rewrite (known_hash ho ro HH HR t r h d x o G E K). exact K. }
  destruct (going_all order ho ro pick doc_content HO HH HR t r h W AW shuffle batches Sh t h V0) as (h' & t' & Q & V & Mo & In & Dn); [unfold W; tauto|auto|].
  pose proof (good_of t' (go_reach _ _ _ _ _ _ _ _ _ _ _ V)) as G'. pose proof (go_client _ _ _ _ _ _ _ _ _ _ _ V) as E'.
  assert (Op : forall o, opens h o <-> opens h' o) by (intros o; unfold opens, me; rewrite (go_keys _ _ _ _ _ _ _ _ _ _ _ V), (go_pairs _ _ _ _ _ _ _ _ _ _ _ V); reflexivity).
  assert (Ar : forall d o, arrives h W d o -> known_ops h' d !! so_hash o = Some o).
  { intros d. fix IH 2. intros o [o1 K|x Hx Ed Ho Hp]; [eapply lookup_weaken; [exact K|apply Mo]|].
    assert (Rd : able h' x). { split; [apply Op, Ho|]. intros p Hpp. destruct (Hp p Hpp) as (q & Hq & Aq). rewrite Ed, <- Hq. exists q. apply IH, Aq. }
    destruct (Dn (ECgka x)) as [X|X]; [unfold W in Hx; tauto| |]; [|rewrite <- Ed; exact (proj1 X)]. destruct (In _ X) as [_ St]. destruct (St Rd). }
  assert (Kn : forall d o, known_ops h' d !! so_hash o = Some o <-> arrives h W d o) by (intros d o; split; [apply (go_from _ _ _ _ _ _ _ _ _ _ _ V)|apply Ar]).
  exists h', t'. split; [exact Q|]. split; [apply V|]. split; [exact E'|]. split; [apply V|]. split; [exact Kn|]. split.
  - intros x. split.
    + intros Hx. destruct (In _ Hx) as [Hw St]. split; [unfold W; tauto|]. intros [Ox A]. apply Ar in A. apply St. split; [apply Op, Ox|]. intros p Hp. exact (known_closed ho ro HH HR t' r h' _ _ _ p G' E' A Hp).
    + intros [Hw N]. destruct (Dn (ECgka x)) as [X|X]; [unfold W in Hw; tauto|exact X|]. destruct N. split; [apply X|]. apply Kn, X.
  - intros x Hx. destruct (In _ Hx) as [_ St]. destruct x; try contradiction. eauto.
Qed.

(** Two orders, and two ways to split the same events into batches, end with the same operations, the same events kept for
    later, and the same people in the key of every document. *)
Theorem C59_same t r h shuffle batches shuffle' batches' h1 h2 : reachable t -> tm_clients t !! r = Some h ->
  (forall l, shuffle l ≡ₚ l) -> (forall l, shuffle' l ≡ₚ l) -> batches <> [] -> batches' <> [] ->
  (forall x, x ∈ concat batches <-> x ∈ concat batches') ->
  (forall x, x ∈ h_pending h \/ x ∈ concat batches -> addressed t h x) ->
  ingests r shuffle h batches = Some h1 -> ingests r shuffle' h batches' = Some h2 ->
  (forall d, known_ops h1 d = known_ops h2 d) /\ (forall x, x ∈ h_pending h1 <-> x ∈ h_pending h2) /\
  (forall d m, orderly (tm_ops t d) -> in_key h1 d m <-> in_key h2 d m).
Proof.
  intros R E S1 S2 N1 N2 Eq AW Q1 Q2.
  assert (Cc : forall (bs : list (list (sevent dop))) x, x ∈ concat bs <-> exists b, b ∈ bs /\ x ∈ b).
  { intros bs x. rewrite elem_of_list_join || (split; [intros X; apply elem_of_list_In, in_concat in X as (b & B1 & B2); exists b; split; apply elem_of_list_In; assumption|intros (b & B1 & B2); apply elem_of_list_In, in_concat; exists b; split; apply elem_of_list_In; assumption]). }
  destruct (C59_any_order t r h shuffle batches R E S1 N1) as (x1 & t1 & P1 & St1 & E1 & O1 & K1 & Pe1 & Ok1); [intros x [X|X]; apply AW; [left; exact X|right; apply Cc, X]|].
  destruct (C59_any_order t r h shuffle' batches' R E S2 N2) as (x2 & t2 & P2 & St2 & E2 & O2 & K2 & Pe2 & Ok2); [intros x [X|X]; apply AW; [left; exact X|right; apply Eq, Cc, X]|].
  rewrite Q1 in P1. rewrite Q2 in P2. apply (inj Some) in P1 as <-. apply (inj Some) in P2 as <-.
  assert (WW : forall x, (x ∈ h_pending h \/ exists b, b ∈ batches /\ x ∈ b) <-> (x ∈ h_pending h \/ exists b, b ∈ batches' /\ x ∈ b)) by (intros x; rewrite <- !Cc, Eq; reflexivity).
  assert (AA : forall W W' : sevent dop -> Prop, (forall x, W x -> W' x) -> forall d o, arrives h W d o -> arrives h W' d o).
  { intros W W' Hw d. fix IH 2. intros o [o1 K|x Hx Ed Ho Hp]; [apply ar_known, K|apply ar_handed; [apply Hw, Hx|exact Ed|exact Ho|]]. intros p Hpp. destruct (Hp p Hpp) as (q & Hq & Aq). exists q. split; [exact Hq|apply IH, Aq]. }
  assert (A12 : forall d o, arrives h (fun x => x ∈ h_pending h \/ exists b, b ∈ batches /\ x ∈ b) d o <-> arrives h (fun x => x ∈ h_pending h \/ exists b, b ∈ batches' /\ x ∈ b) d o) by (intros d o; split; apply AA; intros x; apply WW).
  assert (Rr : forall t1, rtc step t t1 -> reachable t1) by (intros t3 S; clear - R S; induction S; [exact R|apply IHS; eapply tr_step; eauto]).
  assert (Kn : forall d, known_ops h1 d = known_ops h2 d).
  { intros d. apply map_eq. intros x. apply option_eq. intros o. split; intros K.
    - pose proof (known_hash ho ro HH HR t1 r h1 d x o (good_of t1 (Rr _ St1)) E1 K) as <-. apply K2, A12, K1, K.
    - pose proof (known_hash ho ro HH HR t2 r h2 d x o (good_of t2 (Rr _ St2)) E2 K) as <-. apply K1, A12, K2, K. }
  split; [exact Kn|]. split.
  - intros x. split; intros X.
    + destruct (Ok1 x X) as [o ->]. apply Pe2. apply Pe1 in X as [X N]. split; [apply WW, X|]. rewrite <- A12. exact N.
    + destruct (Ok2 x X) as [o ->]. apply Pe1. apply Pe2 in X as [X N]. split; [apply WW, X|]. rewrite A12. exact N.
  - intros d m Od. rewrite (C56_roster order ho ro pick doc_content HO HH HR t1 r h1 d m (Rr _ St1)), (C56_roster order ho ro pick doc_content HO HH HR t2 r h2 d m (Rr _ St2)), Kn by (rewrite ?O1, ?O2; assumption). reflexivity.
Qed.

(** ** A client that was handed everything others made for a document knows all of it, and has nothing of it left for later. *)
Theorem C59_catch_up t r h shuffle batches d (W := fun x => x ∈ h_pending h \/ exists b, b ∈ batches /\ x ∈ b) :
  reachable t -> tm_clients t !! r = Some h -> (forall l, shuffle l ≡ₚ l) -> batches <> [] -> (forall x, W x -> addressed t h x) ->
  (forall x o, tm_ops t d !! x = Some o -> known_ops h d !! x = Some o \/ exists y, W (ECgka y) /\ do_doc y = d /\ do_op y = o) ->
  (forall x o, tm_ops t d !! x = Some o -> opens h o) ->
  exists h' t', ingests r shuffle h batches = Some h' /\ rtc step t t' /\ tm_clients t' !! r = Some h' /\ (forall d, tm_ops t' d = tm_ops t d) /\
    known_ops h' d = tm_ops t d /\ forall x, ECgka x ∈ h_pending h' -> do_doc x <> d.
Proof.
  intros R E Sh Ne AW All Ops. pose proof (good_of t R) as G. destruct (C59_any_order t r h shuffle batches R E Sh Ne AW) as (h' & t' & Q & St & E' & O & K & Pe & _).
  assert (Cl : tm_ops t d = ∅ \/ net_reachable ho ro (seen_as t d)) by (destruct (proj1 G d) as [Z|Z]; [left; change (n_ops (seen_as t d) = ∅); rewrite Z; reflexivity|right; exact Z]).
  assert (Ev : forall x o, tm_ops t d !! x = Some o -> arrives h W d o).
  { destruct Cl as [Z|Rn]; [intros x o X; rewrite Z, lookup_empty in X; discriminate|]. pose proof (net_reachable_ok ho ro HH HR _ Rn) as Ok. pose proof (no_ops _ _ _ Ok) as Oo.
    intros x o Ex. pose proof (net_wf ho ro HH HR _ Rn x (ex_intro _ o Ex)) as Ac. revert o Ex. induction Ac as [x _ IH]. intros o Ex. pose proof (oo_hash _ Oo _ _ Ex) as Hx. destruct (All x o Ex) as [X|(y & Hy & <- & <-)].
    - apply ar_known. rewrite Hx. exact X.
    - apply ar_handed; [exact Hy|reflexivity|exact (Ops _ _ Ex)|]. intros p Hp. assert (Pp : pred_of (all_ops (tm_ops t (do_doc y))) p x) by (exists (do_op y); auto). destruct (oo_closed _ Oo _ _ Pp) as [q Eq]. exists q. split; [exact (oo_hash _ Oo _ _ Eq)|exact (IH p Pp q Eq)]. }
  assert (Rr : reachable t') by (clear - R St; induction St; [exact R|apply IHSt; eapply tr_step; eauto]).
  exists h', t'. repeat (split; [assumption|]). split.
  - apply map_eq. intros x. apply option_eq. intros o. split; intros X.
    + rewrite <- O. eapply lookup_weaken; [exact X|exact (known_made ho ro HH HR t' r h' d (good_of t' Rr) E')].
    + destruct Cl as [Z|Rn]; [rewrite Z, lookup_empty in X; discriminate|]. pose proof (oo_hash _ (no_ops _ _ _ (net_reachable_ok ho ro HH HR _ Rn)) _ _ X) as Hx. rewrite <- Hx. apply K, (Ev x), X.
  - intros x Hx Ed. apply Pe in Hx as [Hw N]. apply N. rewrite Ed. destruct (AW _ Hw) as (_ & X & _). rewrite Ed in X. split; [exact (Ops _ _ X)|exact (Ev _ _ X)].
Qed.
(** With everything known, those in the key are the people that all operations together leave in it. *)
Theorem C59_one_roster t r h shuffle batches d (W := fun x => x ∈ h_pending h \/ exists b, b ∈ batches /\ x ∈ b) h' :
  reachable t -> tm_clients t !! r = Some h -> (forall l, shuffle l ≡ₚ l) -> batches <> [] -> (forall x, W x -> addressed t h x) -> orderly (tm_ops t d) ->
  (forall x o, tm_ops t d !! x = Some o -> known_ops h d !! x = Some o \/ exists y, W (ECgka y) /\ do_doc y = d /\ do_op y = o) ->
  (forall x o, tm_ops t d !! x = Some o -> opens h o) ->
  ingests r shuffle h batches = Some h' -> forall m, in_key h' d m <-> member (tm_ops t d) m.
Proof.
  intros R E Sh Ne AW Od All Ops Q m. destruct (C59_catch_up t r h shuffle batches d R E Sh Ne AW All Ops) as (h1 & t' & Q1 & St & E' & O & K & _). rewrite Q in Q1. apply (inj Some) in Q1 as <-.
  assert (Rr : reachable t') by (clear - R St; induction St; [exact R|apply IHSt; eapply tr_step; eauto]).
  rewrite <- K. apply (C56_roster order ho ro pick doc_content HO HH HR t' r h' d m Rr); [rewrite O; exact Od|exact E'].
Qed.
(** ** Content is read after ingesting the operation it was sealed under, with what that rests on, in any order, by whoever has
    a place in the key at the client that seals it, whatever all clients do in between. *)
Theorem C59_reads t r h d ref content preds sk x rng h' e o t1 r' g shuffle batches (W := fun x => x ∈ h_pending g \/ exists b, b ∈ batches /\ x ∈ b) q : reachable t -> tm_clients t !! r = Some h -> tm_ops t d !! x = None ->
  hive_encrypt (ho r) (ro r) h d ref content preds sk x rng = (h', DOk (e, o)) ->
  rtc step (wrote (went t r h') d e) t1 -> orderly (tm_ops t1 d) -> tm_clients t1 !! r' = Some g ->
  (forall l, shuffle l ≡ₚ l) -> batches <> [] -> (forall x, W x -> addressed t1 g x) -> so_hash q = ec_op e -> arrives g W d q ->
  exists g', ingests r' shuffle g batches = Some g' /\
    forall c, cgka_of g' d = Some c -> in_key h d (c_owner c) -> holds_own (known_ops g' d) c -> (hive_decrypt (ro r') g' d e).2 = Some content.
Proof.
  intros R E U Q S Od Eg Sh Ne AW Hq Ar.
  assert (R1 : reachable t1).
  { assert (R0 : reachable (wrote (went t r h') d e)) by (eapply tr_step; [exact R|]; eapply ts_encrypt; [exact E|exact U|exact Q]). clear - R0 S. induction S; [exact R0|apply IHS; eapply tr_step; eauto]. }
  destruct (C59_any_order t1 r' g shuffle batches R1 Eg Sh Ne AW) as (g' & t' & Qi & St & E' & O & K & _). exists g'. split; [exact Qi|]. intros c Ec Me Ho.
  refine (C56_delivery order ho ro pick doc_content HO HH HR t r h d ref content preds sk x rng h' e o t' r' g' c R E U Q _ _ E' Ec Me _ Ho).
  - etrans; [exact S|exact St].
  - rewrite O. exact Od.
  - exists q. rewrite <- Hq. apply K, Ar.
Qed.

(** ** Secrets that are imported later (C60).  Importing them ends with the same operations, events kept and people in keys as
    having them before anything was handed over. *)
Notation imports r := (import_secrets (order r) doc_content (ho r) (ro r)).
Theorem C60_late t r h shuffle shuffle1 shuffle2 batches l h1 h2 : reachable t -> tm_clients t !! r = Some h -> good_sks l ->
  (forall l, shuffle l ≡ₚ l) -> (forall l, shuffle1 l ≡ₚ l) -> (forall l, shuffle2 l ≡ₚ l) -> batches <> [] ->
  (forall x, x ∈ h_pending h \/ (exists b, b ∈ batches /\ x ∈ b) -> addressed t h x) ->
  ingests r shuffle h batches = Some h1 -> ingests r shuffle2 (more_secrets h l) batches = Some h2 ->
  exists h' rest, imports r shuffle1 h1 l = Some (h', rest) /\
    (forall d, known_ops h' d = known_ops h2 d) /\ (forall x, x ∈ h_pending h' <-> x ∈ h_pending h2) /\
    (forall d m, orderly (tm_ops t d) -> in_key h' d m <-> in_key h2 d m).
Proof.
  intros R E Gl S S1 S2 Ne AW Q1 Q2. set (W := fun x => x ∈ h_pending h \/ exists b, b ∈ batches /\ x ∈ b).
  assert (Rr : forall a b, reachable a -> rtc step a b -> reachable b) by (intros a b Ra Sb; induction Sb; [exact Ra|apply IHSb; eapply tr_step; eauto]).
  destruct (C59_any_order t r h shuffle batches R E S Ne AW) as (x1 & t1 & P1 & St1 & E1 & O1 & K1 & Pe1 & Ok1). rewrite Q1 in P1. apply (inj Some) in P1 as <-. fold W in K1, Pe1.
  (* with the secrets from the start *)
  assert (St0 : step t (went t r (more_secrets h l))) by (apply ts_secrets; assumption). assert (R0 : reachable (went t r (more_secrets h l))) by (eapply tr_step; eauto).
  assert (O0 : forall d, tm_ops (went t r (more_secrets h l)) d = tm_ops t d) by (intros d; apply union_absorb, (known_made ho ro HH HR t r h d (good_of t R) E)).
  assert (Ad : forall a b g g' x, (forall d, tm_ops b d = tm_ops a d) -> h_docs g' = h_docs g -> h_keys g' = h_keys g -> addressed a g x -> addressed b g' x).
  { intros a b g g' x Oo Dd Kk. destruct x as [?|x|?|?]; try exact (fun X => X). unfold addressed, me. rewrite Oo, Dd, Kk. exact (fun X => X). }
  destruct (C59_any_order (went t r (more_secrets h l)) r (more_secrets h l) shuffle2 batches R0 (lookup_insert _ _ _) S2 Ne) as (x2 & t2 & P2 & St2 & E2 & O2 & K2 & Pe2 & Ok2).
  { intros x Hx. apply (Ad t _ h); [exact O0|reflexivity|reflexivity|exact (AW x Hx)]. }
  rewrite Q2 in P2. apply (inj Some) in P2 as <-. change (fun x => x ∈ h_pending (more_secrets h l) \/ exists b, b ∈ batches /\ x ∈ b) with W in K2, Pe2.
  (* afterwards *)
  pose proof (Rr _ _ R St1) as R1. set (g1 := more_secrets h1 l).
  assert (Stl : step t1 (went t1 r g1)) by (apply ts_secrets; assumption). assert (Rl : reachable (went t1 r g1)) by (eapply tr_step; eauto).
  assert (Ol : forall d, tm_ops (went t1 r g1) d = tm_ops t d) by (intros d; rewrite <- O1; apply union_absorb, (known_made ho ro HH HR t1 r h1 d (good_of t1 R1) E1)).
  destruct (ingests_kept order ho ro pick doc_content HO HH HR t r h shuffle batches h1 R E S AW Q1) as (Dk & Kk & Pk).
  assert (WP : forall x, (x ∈ h_pending g1 \/ exists b, b ∈ [[]] /\ x ∈ b) <-> x ∈ h_pending h1).
  { intros x. split; [intros [X|(b & B1 & B2)]; [exact X|apply elem_of_list_singleton in B1 as ->; apply elem_of_nil in B2; contradiction]|left; assumption]. }
  destruct (C59_any_order (went t1 r g1) r g1 shuffle1 [[]] Rl (lookup_insert _ _ _) S1) as (h' & t' & P & St & E' & O & K & Pe & Ok'); [discriminate| |].
  { intros x Hx. apply WP in Hx. destruct (Ok1 x Hx) as [o ->]. apply Pe1 in Hx as [Hx _]. apply (Ad t _ h); [exact Ol|exact Dk|exact Kk|exact (AW _ Hx)]. }
  assert (Op1 : forall o, opens h1 o <-> opens h o) by (intros o; unfold opens, me; rewrite Kk, Pk; reflexivity).
  assert (Opl : forall o, opens g1 o <-> opens (more_secrets h l) o) by (intros o; unfold opens, me, g1, more_secrets; cbn [put_cg h_keys h_cg cs_pairs]; rewrite Kk, Pk; reflexivity).
  assert (Opm : forall o, opens h o -> opens (more_secrets h l) o).
  { intros o X id pk i ps qs Ea Em. destruct (X id pk i ps qs Ea Em) as [sk Z]. cbn [more_secrets put_cg h_cg cs_pairs]. apply lookup_union_is_Some. right. eauto. }
  set (Wl := fun x => x ∈ h_pending g1 \/ exists b, b ∈ [[]] /\ x ∈ b) in *.
  assert (A1 : forall d o, arrives g1 Wl d o -> arrives (more_secrets h l) W d o).
  { intros d. fix IH 2. intros o [o1 Kn|x Hx Ed Ho Hp].
    - change (known_ops h1 d !! so_hash o1 = Some o1) in Kn. apply K1 in Kn. clear - Kn Opm. revert o1 Kn. fix IH 2. intros o [o1 Kn|x Hx Ed Ho Hp]; [apply ar_known, Kn|].
      apply ar_handed; [exact Hx|exact Ed|apply Opm, Ho|]. intros p Hpp. destruct (Hp p Hpp) as (q & Hq & Aq). exists q. split; [exact Hq|apply IH, Aq].
    - apply WP, Pe1 in Hx as [Hx _]. apply ar_handed; [exact Hx|exact Ed|apply Opl, Ho|]. intros p Hpp. destruct (Hp p Hpp) as (q & Hq & Aq). exists q. split; [exact Hq|apply IH, Aq]. }
  assert (A2 : forall d o, arrives (more_secrets h l) W d o -> arrives g1 Wl d o).
  { intros d. fix IH 2. intros o [o1 Kn|x Hx Ed Ho Hp].
    - apply ar_known. change (known_ops h1 d !! so_hash o1 = Some o1). apply K1, ar_known, Kn.
    - destruct (decide (ECgka x ∈ h_pending h1)) as [X|N].
      + apply ar_handed; [apply WP, X|exact Ed|apply Opl, Ho|]. intros p Hpp. destruct (Hp p Hpp) as (q & Hq & Aq). exists q. split; [exact Hq|apply IH, Aq].
      + apply ar_known. change (known_ops h1 d !! so_hash (do_op x) = Some (do_op x)). rewrite <- Ed. apply K1.
        destruct (known_dec h1 (do_doc x) (do_op x)) as [Y|Y]; [apply K1, Y|]. destruct N. apply Pe1. split; [exact Hx|]. intros [_ Z]. apply Y, K1, Z. }
  assert (A12 : forall d o, arrives g1 Wl d o <-> arrives (more_secrets h l) W d o) by (intros d o; split; [apply A1|apply A2]).
  pose proof (Rr _ _ Rl St) as R'. pose proof (Rr _ _ R0 St2) as R2.
  assert (Kn : forall d, known_ops h' d = known_ops h2 d).
  { intros d. apply map_eq. intros x. apply option_eq. intros o. split; intros X.
    - pose proof (known_hash ho ro HH HR t' r h' d x o (good_of t' R') E' X) as <-. apply K2, A12, K, X.
    - pose proof (known_hash ho ro HH HR t2 r h2 d x o (good_of t2 R2) E2 X) as <-. apply K, A12, K2, X. }
  cbn [ingest_all] in P. unfold import_secrets. fold g1. destruct (ingest _ _ _ _ _ shuffle1 g1 []) as [[g rest]|] eqn:Qi; [|discriminate]. apply (inj Some) in P as ->. exists h', rest. split; [reflexivity|]. split; [exact Kn|]. split.
  - intros x. split; intros X.
    + destruct (Ok' x X) as [o ->]. apply Pe in X as [X N]. apply Pe2. split; [apply WP, Pe1 in X as [X _]; exact X|]. intros [Z1 Z2]. apply N. split; [apply Opl, Z1|apply A12, Z2].
    + destruct (Ok2 x X) as [o ->]. apply Pe2 in X as [X N]. apply Pe. split.
      * apply WP, Pe1. split; [exact X|]. intros [Z1 Z2]. apply N. split; [apply Opm, Z1|]. apply A12, ar_known. change (known_ops h1 (do_doc o) !! so_hash (do_op o) = Some (do_op o)). apply K1, Z2.
      * intros [Z1 Z2]. apply N. split; [apply Opl, Z1|apply A12, Z2].
  - intros d m Od. rewrite (C56_roster order ho ro pick doc_content HO HH HR t' r h' d m R'), (C56_roster order ho ro pick doc_content HO HH HR t2 r h2 d m R2), Kn by (rewrite ?O, ?Ol, ?O2, ?O0; assumption). reflexivity.
Qed.
(** What is known after importing, and what is still kept for later. *)
Theorem C60_import t r h shuffle l : reachable t -> tm_clients t !! r = Some h -> good_sks l -> (forall l, shuffle l ≡ₚ l) ->
  (forall x, x ∈ h_pending h -> addressed t h x) ->
  exists h' rest t', imports r shuffle h l = Some (h', rest) /\ rtc step t t' /\ tm_clients t' !! r = Some h' /\ (forall d, tm_ops t' d = tm_ops t d) /\
    (forall d o, known_ops h' d !! so_hash o = Some o <-> arrives (more_secrets h l) (fun x => x ∈ h_pending h) d o) /\
    (forall x, ECgka x ∈ rest <-> ECgka x ∈ h_pending h /\ ~ (opens (more_secrets h l) (do_op x) /\ arrives (more_secrets h l) (fun x => x ∈ h_pending h) (do_doc x) (do_op x))) /\
    h_pending h' = rest.
Proof.
  intros R E Gl Sh AW. set (g1 := more_secrets h l). assert (Stl : step t (went t r g1)) by (apply ts_secrets; assumption). assert (Rl : reachable (went t r g1)) by (eapply tr_step; eauto).
  assert (Ol : forall d, tm_ops (went t r g1) d = tm_ops t d) by (intros d; apply union_absorb, (known_made ho ro HH HR t r h d (good_of t R) E)).
  assert (AW1 : forall x, x ∈ h_pending h -> addressed (went t r g1) g1 x).
  { intros x Hx. specialize (AW x Hx). destruct x as [?|x|?|?]; try exact AW. unfold addressed, me in *. rewrite Ol. exact AW. }
  destruct (going_ingest order ho ro pick doc_content HO HH HR (went t r g1) r g1 (fun x => x ∈ h_pending h) AW1 shuffle (went t r g1) g1 [] Sh (start_going order ho ro pick doc_content HO HH HR _ r g1 _ Rl (lookup_insert _ _ _))) as (h' & t' & rest & Q & V & P & Mo & In & Dn).
  { intros x [X|X]; [apply elem_of_nil in X; contradiction|exact X]. }
  destruct (C59_any_order (went t r g1) r g1 shuffle [[]] Rl (lookup_insert _ _ _) Sh) as (h2 & t2 & P2 & St2 & E2 & O2 & K2 & Pe2 & _); [discriminate| |].
  { intros x [X|(b & B1 & B2)]; [exact (AW1 x X)|apply elem_of_list_singleton in B1 as ->; apply elem_of_nil in B2; contradiction]. }
  cbn [ingest_all] in P2. rewrite Q in P2. apply (inj Some) in P2 as <-.
  assert (WW : forall x, (x ∈ h_pending g1 \/ exists b, b ∈ [[]] /\ x ∈ b) <-> x ∈ h_pending h).
  { intros x. split; [intros [X|(b & B1 & B2)]; [exact X|apply elem_of_list_singleton in B1 as ->; apply elem_of_nil in B2; contradiction]|left; assumption]. }
  assert (AA : forall W W' : sevent dop -> Prop, (forall x, W x -> W' x) -> forall d o, arrives g1 W d o -> arrives g1 W' d o).
  { intros W W' Hw d. fix IH 2. intros o [o1 K|x Hx Ed Ho Hp]; [apply ar_known, K|apply ar_handed; [apply Hw, Hx|exact Ed|exact Ho|]]. intros p Hpp. destruct (Hp p Hpp) as (q & Hq & Aq). exists q. split; [exact Hq|apply IH, Aq]. }
  assert (A12 : forall d o, arrives g1 (fun x => x ∈ h_pending g1 \/ exists b, b ∈ [[]] /\ x ∈ b) d o <-> arrives g1 (fun x => x ∈ h_pending h) d o) by (intros d o; split; apply AA; intros x; apply WW).
  exists h', rest, t2. split; [exact Q|]. split; [eapply rtc_l; [exact Stl|exact St2]|]. split; [exact E2|]. split; [intros d; rewrite O2; apply Ol|]. split; [intros d o; rewrite <- A12; apply K2|]. split; [|exact P].
  intros x. rewrite <- P, Pe2, WW, A12. reflexivity.
Qed.
(** Two devices of one person: with everything of a document handed over, and the secrets of the other device, everything is known
    and the people in the key are those that all operations together leave in it. *)
Theorem C60_second_device t r h r0 g shuffle d : reachable t -> tm_clients t !! r = Some h -> tm_clients t !! r0 = Some g -> me g = me h ->
  (forall l, shuffle l ≡ₚ l) -> (forall x, x ∈ h_pending h -> addressed t h x) ->
  (forall x o, tm_ops t d !! x = Some o -> known_ops h d !! x = Some o \/ exists y, ECgka y ∈ h_pending h /\ do_doc y = d /\ do_op y = o) ->
  (forall x o, tm_ops t d !! x = Some o -> opens g o) ->
  exists h' rest, imports r shuffle h (export_secrets g) = Some (h', rest) /\ known_ops h' d = tm_ops t d /\ (forall x, ECgka x ∈ rest -> do_doc x <> d) /\
    (orderly (tm_ops t d) -> forall m, in_key h' d m <-> member (tm_ops t d) m).
Proof.
  intros R E Eg Em Sh AW All Ops. set (l := export_secrets g). set (g1 := more_secrets h l). assert (Gl : good_sks l) by exact (proj2 (good_of t R) _ _ Eg).
  assert (Stl : step t (went t r g1)) by (apply ts_secrets; assumption). assert (Rl : reachable (went t r g1)) by (eapply tr_step; eauto).
  assert (Ol : forall d, tm_ops (went t r g1) d = tm_ops t d) by (intros d'; apply union_absorb, (known_made ho ro HH HR t r h d' (good_of t R) E)).
  assert (Opm : forall x o, tm_ops (went t r g1) d !! x = Some o -> opens g1 o).
  { intros x o X. rewrite Ol in X. intros id pk i ps qs Ea Ei. destruct (Ops x o X id pk i ps qs Ea) as [sk Z]; [rewrite Em; exact Ei|]. cbn [g1 more_secrets put_cg h_cg cs_pairs]. apply lookup_union_is_Some. left. eauto. }
  destruct (C60_import t r h shuffle l R E Gl Sh AW) as (h' & rest & t' & Q & St & E' & O & K & Pe & P).
  assert (AW1 : forall x, (x ∈ h_pending g1 \/ exists b, b ∈ [[]] /\ x ∈ b) -> addressed (went t r g1) g1 x).
  { intros x [X|(b & B1 & B2)]; [|apply elem_of_list_singleton in B1 as ->; apply elem_of_nil in B2; contradiction]. specialize (AW x X). destruct x as [?|x|?|?]; try exact AW. unfold addressed, me in *. rewrite Ol. exact AW. }
  destruct (C59_catch_up (went t r g1) r g1 shuffle [[]] d Rl (lookup_insert _ _ _) Sh) as (h2 & t2 & P2 & St2 & E2 & O2 & K2 & Pe2); [discriminate|exact AW1| |exact Opm|].
  { intros x o X. rewrite Ol in X. destruct (All x o X) as [Y|(y & Y & Z)]; [left; exact Y|right; exists y; split; [left; exact Y|exact Z]]. }
  unfold import_secrets in Q. fold g1 in Q. cbn [ingest_all] in P2. rewrite Q in P2. apply (inj Some) in P2 as <-. exists h', rest. split; [exact Q|]. rewrite Ol in K2. split; [exact K2|]. split; [intros x Hx; apply Pe2; rewrite P; exact Hx|].
  intros Od m. rewrite <- K2. assert (R' : reachable t') by (clear - R St; induction St; [exact R|apply IHSt; eapply tr_step; eauto]). apply (C56_roster order ho ro pick doc_content HO HH HR t' r h' d m R'); [rewrite O; exact Od|exact E'].
Qed.
End arrive.
Print Assumptions C59_any_order.
Print Assumptions C59_same.
Print Assumptions C59_catch_up.
Print Assumptions C59_one_roster.
Print Assumptions C59_reads.
Print Assumptions C60_late.
Print Assumptions C60_import.
Print Assumptions C60_second_device.
