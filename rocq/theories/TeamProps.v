(** Teams of clients that share documents (C56): each makes its own calls and receives what others
    made in any order; how key agreement, membership and content fit together for all of them. *)
From Coq Require Import Arith Lia.
From stdpp Require Import base list gmap relations.
From Verif Require Import AccessModel GroupModel CgkaSpec GroupSpec.
From Verif Require Import ResModel KeysModel TreeModel OpsModel OpsSpec CgkaModel CgkaSpec NetSpec NetProofs NetInv SecrecySpec TurnSecretSpec
  GrowSpec ReadSpec ReadMade ReadPropsProofs ReadRoster ReadProps ShutSpec ShutPropsProofs EffectSpec EffectPropsProofs AudienceProofs AudienceProps.
From Verif Require Import AccessModel GroupModel PrekeyModel HiveModel HiveSpec DocModel TransactModel DocSpec TeamSpec TeamProofs TeamEffects TeamPropsProofs.
From Verif Require DocProofs DocEffects.

Section team.
Context (order : nat -> gset nat -> list nat) (ho : nat -> gset digest -> list digest) (ro : nat -> gset (member_id * nat) -> list (member_id * nat)).
Context (pick : nat -> client -> ident -> ident -> share_key) (doc_content : nat -> ident -> bool).
Context (HO : forall r, some_order (order r)) (HH : forall r, some_order (ho r)) (HR : forall r, some_order (ro r)).
Notation reachable := (team_reachable order ho ro pick doc_content).
Notation step := (team_step order ho ro pick doc_content).
Notation good_of := (team_reachable_good order ho ro pick doc_content HO HH HR).
Notation on_of := (steps_on order ho ro pick doc_content HO HH HR).

(** ** The group key of every document is used as in C48 to C55: whatever clients do, the key
    agreements of the clients that have the document are replicas of one network. *)
Theorem C56_network t d : reachable t -> seen_as t d = Net ∅ ∅ [] \/ net_reachable ho ro (seen_as t d).
Proof. intros R. exact (proj1 (good_of t R) d). Qed.
Theorem C56_network_steps t t' d : reachable t -> rtc step t t' ->
  seen_as t d = Net ∅ ∅ [] \/ rtc (net_step ho ro) (seen_as t d) (seen_as t' d).
Proof. intros R S. destruct (proj1 (on_of t t' (good_of t R) S) d) as [[Z _]|[_ X]]; auto. Qed.

(** ** Who has a place in the group key at a client: those added and not removed since according
    to the operations it knows. *)
Theorem C56_roster t r h d m : reachable t -> orderly (tm_ops t d) -> tm_clients t !! r = Some h ->
  in_key h d m <-> member (known_ops h d) m.
Proof. intros R. exact (in_key_member ho ro HH HR t r h d m (good_of t R)). Qed.

(** ** Content.  A client whose place in the group key is known to it, and that has the secrets of the
    own keys, can seal content. *)
Theorem C56_members_seal t r h d c ref content preds sk x rng : reachable t -> orderly (tm_ops t d) -> tm_clients t !! r = Some h ->
  cgka_of h d = Some c -> in_key h d (c_owner c) -> holds_own (known_ops h d) c -> 2 * size (known_ops h d) <= length rng ->
  exists h' e o, hive_encrypt (ho r) (ro r) h d ref content preds sk x rng = (h', DOk (e, o)).
Proof.
  intros R Od E Ec Me Ho L. destruct (at_client ho ro t r h d c (good_of t R) E Ec) as [Rn Rp]. rewrite (known_some _ _ _ Ec) in Ho, L.
  apply (C56_roster t r h d _ R Od E) in Me. rewrite (known_some _ _ _ Ec) in Me.
  destruct (members_seal ho ro HH HR _ Rn Od r c ref content preds sk x rng Rp Me Ho L) as (c' & s & o & Q & _). unfold hive_encrypt. rewrite Ec, Q. cbn. eauto.
Qed.
(** Whoever has a place in the group key at the client that seals reads the content as soon as the
    operation it was sealed under is known, whatever all clients do in between. *)
Theorem C56_delivery t r h d ref content preds sk x rng h' e o t' r' g c : reachable t -> tm_clients t !! r = Some h -> tm_ops t d !! x = None ->
  hive_encrypt (ho r) (ro r) h d ref content preds sk x rng = (h', DOk (e, o)) ->
  rtc step (wrote (went t r h') d e) t' -> orderly (tm_ops t' d) ->
  tm_clients t' !! r' = Some g -> cgka_of g d = Some c -> in_key h d (c_owner c) ->
  is_Some (known_ops g d !! ec_op e) -> holds_own (known_ops g d) c ->
  (hive_decrypt (ro r') g d e).2 = Some content.
Proof.
  intros R E U Q S Od Eg Ec Me Kn Ho. pose proof (good_of t R) as G. destruct (encrypts ho ro t r h d ref content preds sk x rng h' e o G E Q) as (c0 & c' & s & o' & Ec0 & N & -> & W & Rn & Rp).
  assert (St : step t (wrote (went t r h') d (app_encrypt s content))) by (eapply ts_encrypt; [exact E|exact U|exact Q]).
  pose proof (tr_step _ _ _ _ _ _ _ R St) as R1. pose proof (good_of _ R1) as G1. pose proof (on_of _ _ G1 S) as On. destruct (at_client ho ro t' r' g d c (on_good ho ro _ _ On) Eg Ec) as [Rn' Rp'].
  assert (Sn : rtc (net_step ho ro) (sent (moved (seen_as t d) r c') [app_encrypt s content]) (seen_as t' d)).
  { rewrite <- W. destruct (proj1 On d) as [[Z _]|[_ X]]; [|exact X]. rewrite W in Z. discriminate. }
  pose proof (seal_reach ho ro _ r c0 c' ref content preds sk x rng s o' Rn Rp U N) as Rs.
  assert (Od1 : orderly (n_ops (sent (moved (seen_as t d) r c') [app_encrypt s content]))) by exact (ops_down ho ro HH HR _ _ Rs Sn Od).
  assert (Od0 : orderly (tm_ops t d)).
  { change (orderly (n_ops (seen_as t d))). eapply orderly_down; [|apply (no_ops _ _ _ (net_reachable_ok ho ro HH HR _ Rn))|exact Od1]. cbn. apply map_union_subseteq_l. }
  apply (C56_roster t r h d _ R Od0 E) in Me. rewrite (known_some _ _ _ Ec0) in Me. rewrite (known_some _ _ _ Ec) in Kn, Ho.
  destruct (C55_members_read ho ro HH HR (seen_as t d) r c0 ref content preds sk x rng c' s o' (seen_as t' d) r' c Rn Rp U N Sn Od Rp' Me Kn Ho) as (c2 & key & D & X).
  unfold hive_decrypt. rewrite Ec, D. exact X.
Qed.
(** It stays closed to people without a place there, all together, with everything that came and will
    ever come with operations about them. *)
Theorem C56_denial t r h d ref content preds sk x rng h' e o t' (C : member_id -> Prop) (K : secret_key -> Prop) : reachable t -> tm_clients t !! r = Some h -> tm_ops t d !! x = None ->
  hive_encrypt (ho r) (ro r) h d ref content preds sk x rng = (h', DOk (e, o)) ->
  rtc step (wrote (went t r h') d e) t' -> orderly (tm_ops t' d) -> fresh_secrets (tm_ops t' d) ->
  (forall m, C m -> ~ in_key h d m) ->
  (forall k y p, K k -> tm_ops t' d !! y = Some p -> k ∈ secrets (so_op p) -> C (about (so_op p))) ->
  closed_to K (tm_ops t' d) e.
Proof.
  intros R E U Q S Od FS Hm HK. pose proof (good_of t R) as G. destruct (encrypts ho ro t r h d ref content preds sk x rng h' e o G E Q) as (c0 & c' & s & o' & Ec0 & N & -> & W & Rn & Rp).
  assert (St : step t (wrote (went t r h') d (app_encrypt s content))) by (eapply ts_encrypt; [exact E|exact U|exact Q]).
  pose proof (tr_step _ _ _ _ _ _ _ R St) as R1. pose proof (good_of _ R1) as G1. pose proof (on_of _ _ G1 S) as On.
  assert (Sn : rtc (net_step ho ro) (sent (moved (seen_as t d) r c') [app_encrypt s content]) (seen_as t' d)).
  { rewrite <- W. destruct (proj1 On d) as [[Z _]|[_ X]]; [|exact X]. rewrite W in Z. discriminate. }
  pose proof (seal_reach ho ro _ r c0 c' ref content preds sk x rng s o' Rn Rp U N) as Rs.
  assert (Od1 : orderly (n_ops (sent (moved (seen_as t d) r c') [app_encrypt s content]))) by exact (ops_down ho ro HH HR _ _ Rs Sn Od).
  assert (Od0 : orderly (tm_ops t d)).
  { change (orderly (n_ops (seen_as t d))). eapply orderly_down; [|apply (no_ops _ _ _ (net_reachable_ok ho ro HH HR _ Rn))|exact Od1]. cbn. apply map_union_subseteq_l. }
  refine (C55_others_locked_out ho ro HH HR (seen_as t d) r c0 ref content preds sk x rng c' s o' (seen_as t' d) C K Rn Rp U N Sn Od FS _ HK).
  intros m Cm M. apply (Hm m Cm). apply (C56_roster t r h d _ R Od0 E). rewrite (known_some _ _ _ Ec0). exact M.
Qed.
(** What anybody seals later, with knowledge of what a client knows, stays closed to whoever has no place in
    the group key at that client and is not added again before. *)
Theorem C56_no_place t r h d c m t' e (K : secret_key -> Prop) : reachable t -> tm_clients t !! r = Some h -> cgka_of h d = Some c -> ~ in_key h d m ->
  rtc step t t' -> orderly (tm_ops t' d) -> fresh_secrets (tm_ops t' d) -> (d, e) ∈ tm_cts t' ->
  sealed_after (tm_ops t' d) (known_ops h d) m e -> only_of (tm_ops t' d) m K -> closed_to K (tm_ops t' d) e.
Proof.
  intros R E Ec No S Od FS He Sa HK. pose proof (good_of t R) as G. destruct (at_client ho ro t r h d c G E Ec) as [Rn Rp]. pose proof (on_of _ _ G S) as On.
  assert (Sn : rtc (net_step ho ro) (seen_as t d) (seen_as t' d)).
  { destruct (proj1 On d) as [[Z _]|[_ X]]; [|exact X]. rewrite Z in Rp. discriminate. }
  pose proof (ops_down ho ro HH HR _ _ Rn Sn Od) as Od0. rewrite (known_some _ _ _ Ec) in Sa.
  refine (gone_shuts ho ro HH HR (seen_as t d) r c m (seen_as t' d) e K Rn Rp _ Sn Od FS _ Sa HK).
  - intros M. apply No. apply (C56_roster t r h d _ R Od0 E). rewrite (known_some _ _ _ Ec). exact M.
  - cbn. unfold contents. apply elem_of_list_omap. exists (d, e). split; [exact He|]. cbn. rewrite decide_True; reflexivity.
Qed.

(** ** Changing members.  After adding somebody with read access, exactly the individuals they stand for
    have got places in the group keys concerned; the client may have received anything from others. *)
Theorem C56_add t r h i who can content s hs h' d ops P : well_signed P -> tidy (order r) P h -> reachable t -> tm_clients t !! r = Some h ->
  (forall j, unseen t j (hs j)) -> hive_add_member (order r) (ho r) (ro r) (pick r h) h i who can content s hs = (h', DOk (d, ops)) -> P (MD d) ->
  forall j, is_Some (h_docs h !! j) -> orderly (tm_ops (went t r h') j) ->
  forall m, in_key h' j m <-> in_key h j m \/
    (is_reader can = true /\ (j = i \/ (is_Some (h_groups h !! i) /\ belongs (h_env h') j i)) /\ stands_for (h_env h') who m).
Proof.
  intros WS T R E U Q Pd j Dj Od. pose proof (good_of t R) as G.
  assert (R1 : reachable (went t r h')) by (eapply tr_step; [exact R|eapply ts_add; [exact E|exact U|exact Q]]).
  destruct (add_ran (order r) (HO r) (ho r) (ro r) (pick r h) P WS hs False h i who can content s h' d ops T Q Pd) as (h1 & g & _ & _ & _ & _ & _ & _ & _ & _ & Rn).
  destruct (ran_exact ho ro HH HR t r h h' hs False j _ G E (good_of _ R1) Od (U j) (Rn j Dj)) as [X|[[] _]]. exact X.
Qed.
(** After revoking somebody, exactly the individuals they stood for and that do not belong any more have lost their
    places in the group keys concerned. *)
Theorem C56_revoke t r h i target retain content sigs hs h' rs ds ops P : well_signed P -> tidy (order r) P h -> reachable t -> tm_clients t !! r = Some h ->
  (forall j, unseen t j (hs j)) -> hive_revoke_member (order r) (ho r) (ro r) h i target retain content sigs hs = (h', DOk (rs, ds, ops)) ->
  (forall x, x ∈ rs -> P (MR x)) -> (forall x, x ∈ ds -> P (MD x)) ->
  forall j, is_Some (h_docs h !! j) -> in_key h j j -> orderly (tm_ops (went t r h') j) ->
  forall m, in_key h' j m <-> in_key h j m /\
    ((j = i \/ (is_Some (h_groups h !! i) /\ belongs (h_env h') j i)) -> direct (h_env h) i target -> stands_for (h_env h) target m -> person_of (h_env h') j m).
Proof.
  intros WS T R E U Q Pr Pd j Dj Kj Od. pose proof (good_of t R) as G.
  assert (R1 : reachable (went t r h')) by (eapply tr_step; [exact R|eapply ts_revoke; [exact E|exact U|exact Q]]).
  destruct (revoke_ran (order r) (HO r) (ho r) (ro r) (pick r h) P WS hs True h i target retain content sigs h' rs ds ops T Q Pr Pd (fun _ => I)) as (h1 & g & _ & _ & _ & _ & Rn).
  destruct (ran_exact ho ro HH HR t r h h' hs True j _ G E (good_of _ R1) Od (U j) (Rn j Dj)) as [X|(_ & No & _)]; [exact X|].
  exfalso. apply (No j). split; [exact Kj|]. intros _ _ [_ Z]. destruct Dj as [gj Dj]. destruct (DocEffects.env_at (order r) P h j gj T (or_intror Dj)) as [y Y]. congruence.
Qed.
(** Hence: whoever was revoked, and does not belong any more, cannot read what is sealed from then on with
    knowledge of what the revoking client knows. *)
Theorem C56_revoked_locked_out t r h i target retain content sigs hs h' rs ds ops P : well_signed P -> tidy (order r) P h -> reachable t -> tm_clients t !! r = Some h ->
  (forall j, unseen t j (hs j)) -> hive_revoke_member (order r) (ho r) (ro r) h i target retain content sigs hs = (h', DOk (rs, ds, ops)) ->
  (forall x, x ∈ rs -> P (MR x)) -> (forall x, x ∈ ds -> P (MD x)) ->
  forall j m t' e (K : secret_key -> Prop), is_Some (h_docs h !! j) -> in_key h j j -> j = i \/ (is_Some (h_groups h !! i) /\ belongs (h_env h') j i) ->
  direct (h_env h) i target -> stands_for (h_env h) target m -> ~ person_of (h_env h') j m ->
  rtc step (went t r h') t' -> orderly (tm_ops t' j) -> fresh_secrets (tm_ops t' j) -> (j, e) ∈ tm_cts t' ->
  sealed_after (tm_ops t' j) (known_ops h' j) m e -> only_of (tm_ops t' j) m K -> closed_to K (tm_ops t' j) e.
Proof.
  intros WS T R E U Q Pr Pd j m t' e K Dj Kj Co Di Sf Np S Od FS He Sa HK.
  assert (R1 : reachable (went t r h')) by (eapply tr_step; [exact R|eapply ts_revoke; [exact E|exact U|exact Q]]).
  assert (E' : tm_clients (went t r h') !! r = Some h') by apply lookup_insert.
  destruct Kj as (c & Ec & Cj). pose proof (at_client ho ro t r h j c (good_of t R) E Ec) as [Rn Rp].
  assert (exists c', cgka_of h' j = Some c') as [c' Ec'].
  { destruct (revoke_ran (order r) (HO r) (ho r) (ro r) (pick r h) P WS hs True h i target retain content sigs h' rs ds ops T Q Pr Pd (fun _ => I)) as (h1 & g & _ & _ & _ & _ & Rr).
    destruct (Rr j Dj) as [[Eq _]|(c1 & c2 & _ & Eq & _)]; [rewrite Eq; eauto|eauto]. }
  destruct (at_client ho ro _ r h' j c' (good_of _ R1) E' Ec') as [Rn' Rp'].
  assert (Od1 : orderly (tm_ops (went t r h') j)).
  { destruct (proj1 (on_of _ _ (good_of _ R1) S) j) as [[Z _]|[_ X]]; [rewrite Z in Rp'; discriminate|]. exact (ops_down ho ro HH HR _ _ Rn' X Od). }
  refine (C56_no_place _ r h' j c' m t' e K R1 E' Ec' _ S Od FS He Sa HK). intros Km.
  apply (C56_revoke t r h i target retain content sigs hs h' rs ds ops P WS T R E U Q Pr Pd j Dj (ex_intro _ c (conj Ec Cj)) Od1) in Km as [_ Km]. exact (Np (Km Co Di Sf)).
Qed.
(** And whoever was added with read access reads what the adding client seals. *)
Theorem C56_added_reads t r h i who can content s hs h' d ops P : well_signed P -> tidy (order r) P h -> reachable t -> tm_clients t !! r = Some h ->
  (forall j, unseen t j (hs j)) -> hive_add_member (order r) (ho r) (ro r) (pick r h) h i who can content s hs = (h', DOk (d, ops)) -> P (MD d) -> is_reader can = true ->
  forall j ref text preds sk x rng h2 e o t' r' g c, is_Some (h_docs h !! j) -> j = i \/ (is_Some (h_groups h !! i) /\ belongs (h_env h') j i) ->
  tm_ops (went t r h') j !! x = None -> hive_encrypt (ho r) (ro r) h' j ref text preds sk x rng = (h2, DOk (e, o)) ->
  rtc step (wrote (went (went t r h') r h2) j e) t' -> orderly (tm_ops t' j) ->
  tm_clients t' !! r' = Some g -> cgka_of g j = Some c -> stands_for (h_env h') who (c_owner c) -> is_Some (known_ops g j !! ec_op e) -> holds_own (known_ops g j) c ->
  (hive_decrypt (ro r') g j e).2 = Some text.
Proof.
  intros WS T R E U Q Pd Rd j ref text preds sk x rng h2 e o t' r' g c Dj Co Ux Qe S Od Eg Ec Sf Kn Ho.
  assert (R1 : reachable (went t r h')) by (eapply tr_step; [exact R|eapply ts_add; [exact E|exact U|exact Q]]).
  assert (E' : tm_clients (went t r h') !! r = Some h') by apply lookup_insert.
  destruct (encrypts ho ro _ r h' j ref text preds sk x rng h2 e o (good_of _ R1) E' Qe) as (c0 & c' & s' & o' & Ec0 & N & He & W & Rn & Rp).
  assert (St : step (went t r h') (wrote (went (went t r h') r h2) j e)) by (eapply ts_encrypt; [exact E'|exact Ux|exact Qe]).
  assert (Od1 : orderly (tm_ops (went t r h') j)).
  { destruct (proj1 (on_of _ _ (good_of _ R1) (rtc_l _ _ _ _ St S)) j) as [[Z _]|[_ X]]; [rewrite Z in Rp; discriminate|]. exact (ops_down ho ro HH HR _ _ Rn X Od). }
  refine (C56_delivery _ r h' j ref text preds sk x rng h2 e o t' r' g c R1 E' Ux Qe S Od Eg Ec _ Kn Ho).
  apply (C56_add t r h i who can content s hs h' d ops P WS T R E U Q Pd j Dj Od1). right. auto.
Qed.
End team.
Print Assumptions C56_network.
Print Assumptions C56_network_steps.
Print Assumptions C56_roster.
Print Assumptions C56_members_seal.
Print Assumptions C56_delivery.
Print Assumptions C56_denial.
Print Assumptions C56_no_place.
Print Assumptions C56_add.
Print Assumptions C56_revoke.
Print Assumptions C56_revoked_locked_out.
Print Assumptions C56_added_reads.
