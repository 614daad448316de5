(** C63: what a client answers when asked who has access to what. *)
From Coq Require Import Arith Lia.
From stdpp Require Import base list gmap relations.
From Verif Require Import ResModel KeysModel TreeModel OpsModel CgkaModel.
From Verif Require Import AccessModel GroupModel CgkaSpec GroupSpec GroupMembers GroupHistory GroupTransitive GroupPropsProofs PrekeyModel HiveModel HiveSpec SyncModel DocModel DocSpec DocProofs.
From Verif Require Import TransactModel ArriveModel SettleSpec SettleProofs SettleProps QueryModel QuerySpec QueryProofs.

Section props.
Context (order : gset nat -> list nat) (horder : gset digest -> list digest) (rorder : gset (member_id * nat) -> list (member_id * nat)).
Context (pick : client -> ident -> ident -> share_key) (doc_content : nat -> ident -> bool) (P : mop -> Prop).
Context (O : some_order order) (Pr : proper P).
Notation mixed := (mixed order horder rorder pick doc_content P).
Notation reachable_members := (reachable_members order).
Notation docs_reachable_by := (docs_reachable_by order).
Notation membered_reachable_by := (membered_reachable_by order).
Notation reachable_docs := (reachable_docs order).
Notation access_for_doc := (access_for_doc order).
Notation best_access_for_doc := (best_access_for_doc order).
Notation doc_member_capabilities := (doc_member_capabilities order).
Notation revoked_members_for_doc := (revoked_members_for_doc order).

Lemma tidy_of h : mixed h -> tidy order P h.
Proof. apply C62_tidy; assumption. Qed.
Lemma wf_of h i g : mixed h -> has_group h i g -> wf_members (gr_members g).
Proof.
  intros M G. pose proof (mixed_settled order horder rorder pick doc_content P O Pr h M) as S. destruct (group_sound order P Pr h i g S G) as (ops & _ & Hi & [U D] & _).
  exact (members_wf order O ops g Hi U D).
Qed.
Lemma direct_of h x y : mixed h -> direct (h_env h) x y <-> member_of h x y.
Proof.
  intros M. pose proof (tidy_of h M) as T. split.
  - intros (mems & E & [l L]). apply (env_group order P h T) in E as (g & G & ->). destruct (wf_of h x g M G y l L) as [Ne D]. destruct l as [|d l]; [congruence|].
    exists g, d. split; [exact G|]. assert (Ed : d_delegate d = y) by (apply D; left). split; [|exact Ed]. exists (d :: l). rewrite Ed. split; [exact L|left].
  - intros (g & d & G & (l & L & _) & <-). exists (gr_members g). split; [apply (env_group order P h T); eauto|eauto].
Qed.
Lemma tc_both {A} (R S : A -> A -> Prop) : (forall x y, R x y -> S x y) -> forall x y, tc R x y -> tc S x y.
Proof. intros H x y. induction 1 as [x y X|x y z X _ IH]; [apply tc_once, H, X|eapply tc_l; [apply H, X|exact IH]]. Qed.
Lemma belongs_of h i a : mixed h -> belongs (h_env h) i a <-> has_access h i a.
Proof. intros M. split; apply tc_both; intros x y; apply (direct_of h x y M). Qed.
Lemma individual_of h a : mixed h -> h_env h !! a = None <-> individual_to h a.
Proof.
  intros M. pose proof (tidy_of h M) as T. split.
  - intros E g G. assert (X : h_env h !! a = Some (gr_members g)) by (apply (env_group order P h T); eauto). congruence.
  - intros N. destruct (h_env h !! a) as [mems|] eqn:E; [|reflexivity]. apply (env_group order P h T) in E as (g & G & _). destruct (N g G).
Qed.

(** [reachable_members] reports exactly those that have access to the group or document. *)
Theorem C63_members h i g : mixed h -> has_group h i g -> exists caps, reachable_members h i = Some caps /\ forall a, a <> i -> is_Some (caps !! a) <-> has_access h i a.
Proof.
  intros M G. destruct (members_spec order O P (proj1 Pr) h (tidy_of h M) i g G) as (caps & E & _ & K). exists caps. split; [exact E|]. intros a N. rewrite (K a N). apply belongs_of, M.
Qed.
(** [docs_reachable_by_agent] reports exactly the documents that the agent has access to, each with the access that
    [reachable_members] of the document reports for the agent; [reachable_docs] does so for the client itself. *)
Theorem C63_docs h a : mixed h -> exists m, docs_reachable_by h a = Some m /\ (a = me h -> reachable_docs h = Some m) /\
  (forall i c, m !! i = Some c <-> is_Some (h_docs h !! i) /\ exists caps, reachable_members h i = Some caps /\ caps !! a = Some c) /\
  forall i, i <> a -> is_Some (m !! i) <-> is_Some (h_docs h !! i) /\ has_access h i a.
Proof.
  intros M. pose proof (tidy_of h M) as T. destruct (docs_spec order O P (proj1 Pr) h T a) as (m & E & K). exists m. split; [exact E|]. split; [intros ->; exact E|]. split; [exact K|].
  intros i N. split.
  - intros [c X]. apply K in X as (D & caps & Ec & Ea). split; [exact D|]. destruct D as [g D]. destruct (C63_members h i g M (or_intror D)) as (caps' & Ec' & Kc).
    rewrite Ec in Ec'. injection Ec' as <-. apply Kc; [congruence|]. eauto.
  - intros [[g D] A]. destruct (C63_members h i g M (or_intror D)) as (caps & Ec & Kc). assert (Na : a <> i) by congruence. destruct (proj2 (Kc a Na) A) as [c X]. exists c. apply K. split; [eauto|]. exists caps. auto.
Qed.
(** [membered_reachable_by_agent] does the same for groups and documents. *)
Theorem C63_membered h a : mixed h -> exists m, membered_reachable_by h a = Some m /\
  (forall i c, m !! i = Some c <-> exists caps, reachable_members h i = Some caps /\ caps !! a = Some c) /\ forall i, i <> a -> is_Some (m !! i) <-> has_access h i a.
Proof.
  intros M. pose proof (tidy_of h M) as T. destruct (membereds_spec order O P (proj1 Pr) h T a) as (m & E & K). exists m. split; [exact E|]. split; [exact K|].
  intros i N. assert (Na : a <> i) by congruence. split.
  - intros [c X]. apply K in X as (caps & Ec & Ea). destruct (membered_at h i) as [g|] eqn:Mg; [|unfold QueryModel.reachable_members in Ec; rewrite Mg in Ec; discriminate].
    apply (membered_spec order P h T) in Mg. destruct (C63_members h i g M Mg) as (caps' & Ec' & Kc). rewrite Ec in Ec'. injection Ec' as <-. apply Kc; [exact Na|]. eauto.
  - intros A. assert (Hg : exists g, has_group h i g).
    { apply tc_first in A as (b & (g & _ & G & _) & _). eauto. }
    destruct Hg as [g G]. destruct (C63_members h i g M G) as (caps & Ec & Kc). destruct (proj2 (Kc a Na) A) as [c X]. exists c. apply K. eauto.
Qed.
(** [accessForDoc] answers from the same map, and always. *)
Theorem C63_access h a i : mixed h -> exists r, access_for_doc h a i = Some r /\
  (forall c, r = Some c <-> is_Some (h_docs h !! i) /\ exists caps, reachable_members h i = Some caps /\ caps !! a = Some c) /\ (i <> a -> is_Some r <-> is_Some (h_docs h !! i) /\ has_access h i a).
Proof.
  intros M. unfold QueryModel.access_for_doc. destruct (h_docs h !! i) as [g|] eqn:D.
  - destruct (members_spec order O P (proj1 Pr) h (tidy_of h M) i g (or_intror D)) as (caps & E & -> & K). exists (caps !! a). split; [reflexivity|]. split.
    + intros c. split; [intros X; split; [eauto|]; exists caps; auto|]. intros (_ & caps' & E' & X). rewrite E in E'. injection E' as <-. exact X.
    + intros N. rewrite (K a) by congruence. rewrite (belongs_of h i a M). split; [intros X; split; [eauto|exact X]|intros [_ X]; exact X].
  - exists None. split; [reflexivity|]. split.
    + intros c. split; [discriminate|]. intros [[? X] _]. discriminate.
    + intros _. split; [intros [? X]; discriminate|]. intros [[? X] _]. discriminate.
Qed.
(** [bestAccessForDoc] is the greater of the agent's access and that of the public, if one of them has any. *)
Theorem C63_best h a i : mixed h -> exists r, best_access_for_doc h a i = Some r /\
  (forall b, r = Some b -> exists x, (x = a \/ x = ks_public (h_keys h)) /\ access_for_doc h x i = Some (Some b)) /\
  (forall x c, x = a \/ x = ks_public (h_keys h) -> access_for_doc h x i = Some (Some c) -> exists b, r = Some b /\ rank c <= rank b).
Proof.
  intros M. unfold QueryModel.best_access_for_doc, QueryModel.access_for_doc. destruct (h_docs h !! i) as [g|] eqn:D; [|exists None; split; [reflexivity|]; split; [discriminate|intros x c _; discriminate]].
  destruct (members_spec order O P (proj1 Pr) h (tidy_of h M) i g (or_intror D)) as (caps & E & -> & K). eexists. split; [reflexivity|].
  destruct (caps !! a) as [x|] eqn:Xa, (caps !! ks_public (h_keys h)) as [y|] eqn:Xp.
  - destruct (amax_rank x y) as (A & B & C). split.
    + intros b [= <-]. destruct C as [-> | ->]; [exists a|exists (ks_public (h_keys h))]; (split; [auto|congruence]).
    + intros z c [-> | ->] Q; [rewrite Xa in Q|rewrite Xp in Q]; injection Q as <-; eauto.
  - split; [intros b [= <-]; exists a; split; [auto|congruence]|]. intros z c [-> | ->] Q; [rewrite Xa in Q; injection Q as <-; eauto|rewrite Xp in Q; discriminate].
  - split; [intros b [= <-]; exists (ks_public (h_keys h)); split; [auto|congruence]|]. intros z c [-> | ->] Q; [rewrite Xa in Q; discriminate|rewrite Xp in Q; injection Q as <-; eauto].
  - split; [discriminate|]. intros z c [-> | ->] Q; [rewrite Xa in Q|rewrite Xp in Q]; discriminate.
Qed.
(** [docMemberCapabilities] lists exactly the individuals that have access to the document, with the access that [accessForDoc] reports. *)
Theorem C63_capabilities h i : mixed h -> is_Some (h_docs h !! i) -> exists m, doc_member_capabilities h i = Some m /\
  (forall a, is_Some (m !! a) <-> individual_to h a /\ has_access h i a) /\ forall a c, m !! a = Some c -> access_for_doc h a i = Some (Some c).
Proof.
  intros M [g D]. unfold QueryModel.doc_member_capabilities, QueryModel.access_for_doc. rewrite D. destruct (members_spec order O P (proj1 Pr) h (tidy_of h M) i g (or_intror D)) as (caps & E & -> & K).
  exists (individuals_of h i caps). split; [reflexivity|].
  assert (F : forall a c, individuals_of h i caps !! a = Some c <-> caps !! a = Some c /\ a <> i /\ individual_to h a).
  { intros a c. unfold individuals_of. rewrite map_filter_lookup_Some. cbn [fst]. rewrite (individual_of h a M). tauto. }
  split; [|intros a c X; apply F in X as [X _]; congruence]. intros a. split.
  - intros [c X]. apply F in X as (X & N & I). split; [exact I|]. apply (belongs_of h i a M), (K a N). eauto.
  - intros [I A]. assert (N : a <> i) by (intros ->; apply (I g); right; exact D). apply (belongs_of h i a M), (K a N) in A as [c X]. exists c. apply F. auto.
Qed.
(** [revokedMembersForDoc] lists exactly the individuals that a revocation in force took a delegation from and that no
    delegation in force in the document itself is to, with the greatest access taken; the client has those revocations. *)
Theorem C63_revoked h i a c : mixed h -> is_Some (h_docs h !! i) -> revoked_members_for_doc h i !! a = Some c <->
  individual_to h a /\ ~ member_of h i a /\ (exists r, revoking h i r /\ has_op h (MR r) /\ d_delegate (r_revoke r) = a /\ d_can (r_revoke r) = c) /\
  forall r, revoking h i r -> d_delegate (r_revoke r) = a -> rank (d_can (r_revoke r)) <= rank c.
Proof.
  intros M [g D]. pose proof (tidy_of h M) as T. assert (G : has_group h i g) by (right; exact D).
  assert (Un : forall g', has_group h i g' -> g' = g). { intros g' G'. apply (membered_spec order P h T) in G, G'. congruence. }
  assert (Ac : forall s r, gr_active g !! s = Some r -> has_op h (MR r)).
  { intros s r X. pose proof (mixed_settled order horder rorder pick doc_content P O Pr h M) as S. destruct (group_sound order P Pr h i g S G) as (ops & _ & Hi & [U Dg] & _ & Hops).
    destruct (replayed order O ops g Hi U Dg) as (l & s' & _ & _ & L & _ & _ & _ & _ & I & _ & Ea). rewrite Ea in X. apply (pl_act _ _ _ I) in X as [X _]. apply (Hops (MR r)), L, X. }
  assert (Nm : gr_members g !! a = None <-> ~ member_of h i a).
  { rewrite <- (direct_of h i a M). split.
    - intros N (mems & E & [l L]). apply (env_group order P h T) in E as (g' & G' & ->). rewrite (Un g' G') in L. congruence.
    - intros N. destruct (gr_members g !! a) eqn:E; [|reflexivity]. exfalso. apply N. exists (gr_members g). split; [apply (env_group order P h T); eauto|eauto]. }
  unfold QueryModel.revoked_members_for_doc. rewrite D. unfold individuals_of. rewrite map_filter_lookup_Some. cbn [fst]. rewrite (individual_of h a M), (revoked_members_spec order O g a c), Nm. split.
  - intros ((N & (s & r & X & E & C) & Mx) & _ & I). split; [exact I|]. split; [exact N|]. split; [exists r; split; [exists g, s; auto|]; split; [exact (Ac s r X)|auto]|].
    intros r' (g' & s' & G' & X') E'. rewrite (Un g' G') in X'. exact (Mx s' r' X' E').
  - intros (I & N & (r & (g' & s & G' & X) & _ & E & C) & Mx). rewrite (Un g' G') in X. split; [|split; [intros ->; exact (I g G)|exact I]].
    split; [exact N|]. split; [eauto|]. intros s' r' X' E'. apply (Mx r'); [exists g, s'; auto|exact E'].
Qed.
(** A delegation that the client has, and that is not revoked, gives its delegate access to its group or document and to everything that
    has it as a member: all of it is reported. *)
Theorem C63_delegated h d i m : mixed h -> has_op h (MD d) -> orderable (fun o => has_op h o /\ op_subject o = d_subject d) -> untouched (fun o => has_op h o /\ op_subject o = d_subject d) d ->
  i = d_subject d \/ has_access h i (d_subject d) -> is_Some (h_docs h !! i) -> i <> d_delegate d -> docs_reachable_by h (d_delegate d) = Some m -> is_Some (m !! i).
Proof.
  intros M Hd Q U A D N E. destruct (C63_docs h (d_delegate d) M) as (m' & E' & _ & _ & K). rewrite E in E'. injection E' as <-. apply (K i N). split; [exact D|].
  destruct (C62_kept order horder rorder pick doc_content P O Pr h d M Hd Q U) as (g & G & H). assert (L : member_of h (d_subject d) (d_delegate d)) by (exists g, d; auto).
  destruct A as [->|A]; [apply tc_once, L|eapply tc_r; [exact A|exact L]].
Qed.
End props.

(** Clients with the same operations list the same people for a document. *)
Theorem C63_same_people order order' horder horder' rorder rorder' pick pick' doc_content doc_content' P h h' i m m' : some_order order -> some_order order' -> proper P ->
  mixed order horder rorder pick doc_content P h -> mixed order' horder' rorder' pick' doc_content' P h' -> (forall o, has_op h o <-> has_op h' o) ->
  (forall j, revoked_once (fun o => has_op h o /\ op_subject o = j)) -> is_Some (h_docs h !! i) -> is_Some (h_docs h' !! i) ->
  doc_member_capabilities order h i = Some m -> doc_member_capabilities order' h' i = Some m' -> dom m = dom m'.
Proof.
  intros O O' Pr M M' Same V D D' E E'.
  assert (Half : forall o1 o2 ho1 ho2 ro1 ro2 p1 p2 dc1 dc2 h1 h2, some_order o1 -> some_order o2 -> mixed o1 ho1 ro1 p1 dc1 P h1 -> mixed o2 ho2 ro2 p2 dc2 P h2 -> (forall o, has_op h1 o <-> has_op h2 o) ->
    (forall j, revoked_once (fun o => has_op h1 o /\ op_subject o = j)) -> forall j g1, has_group h1 j g1 -> exists g2, has_group h2 j g2 /\ gr_members g1 = gr_members g2).
  { intros o1 o2 ho1 ho2 ro1 ro2 p1 p2 dc1 dc2 h1 h2 O1 O2 M1 M2 S V1 j g1 G1. pose proof (mixed_settled o1 ho1 ro1 p1 dc1 P O1 Pr h1 M1) as S1. pose proof (mixed_settled o2 ho2 ro2 p2 dc2 P O2 Pr h2 M2) as S2.
    destruct (group_sound o1 P Pr h1 j g1 S1 G1) as (ops & Ei & Hi & So & _ & Hops). destruct ops as [|o ops].
    { exfalso. pose proof (history_consistent o1 O1 _ _ Hi (proj1 So) (proj2 So)) as C. apply (cs_heads _ _ _ C). apply map_empty. intros s. destruct (gr_dheads g1 !! s) as [d|] eqn:X; [|reflexivity]. exfalso.
      assert (K : known g1 (MD d)). { exists (MD d). split; [|apply rtc_refl]. cbn. rewrite (proj1 (cs_filed _ _ _ C) s d X). exact X. }
      apply (cs_known _ _ _ C) in K. inversion K. }
    assert (Ho : o ∈ o :: ops) by left. apply Hops in Ho as [Ho Es]. apply S in Ho. destruct (se_known _ _ _ S2 o Ho) as [g2 G2]. rewrite Es in G2. exists g2. split; [exact G2|].
    apply (C62_agree o1 o2 ho1 ho2 ro1 ro2 p1 p2 dc1 dc2 P h1 h2 j g1 g2 O1 O2 Pr M1 M2 G1 G2 (fun x _ => S x) (V1 j)). }
  assert (V' : forall j, revoked_once (fun o => has_op h' o /\ op_subject o = j)) by (intros j a b [A A'] [B B']; apply (V j); split; try assumption; apply Same; assumption).
  pose proof (Half _ _ _ _ _ _ _ _ _ _ h h' O O' M M' Same V) as H1. pose proof (Half _ _ _ _ _ _ _ _ _ _ h' h O' O M' M (fun o => iff_sym (Same o)) V') as H2.
  assert (Mo : forall x y, member_of h x y <-> member_of h' x y).
  { intros x y. split; intros (g & d & G & (l & L & Hd) & Ed); [destruct (H1 x g G) as (g2 & G2 & Eg)|destruct (H2 x g G) as (g2 & G2 & Eg)];
      (exists g2, d; split; [exact G2|]; split; [exists l; rewrite <- Eg; auto|exact Ed]). }
  assert (Ia : forall a, individual_to h a <-> individual_to h' a). { intros a. split; intros N g G; [destruct (H2 a g G) as (g2 & G2 & _)|destruct (H1 a g G) as (g2 & G2 & _)]; exact (N g2 G2). }
  destruct (C63_capabilities order horder rorder pick doc_content P O Pr h i M D) as (m1 & E1 & K1 & _). rewrite E in E1. injection E1 as <-.
  destruct (C63_capabilities order' horder' rorder' pick' doc_content' P O' Pr h' i M' D') as (m2 & E2 & K2 & _). rewrite E' in E2. injection E2 as <-.
  apply set_eq. intros a. rewrite !elem_of_dom, K1, K2, Ia. split; intros [A B]; (split; [exact A|]); revert B; apply tc_both; intros x y; apply Mo.
Qed.

Print Assumptions C63_members.
Print Assumptions C63_docs.
Print Assumptions C63_membered.
Print Assumptions C63_access.
Print Assumptions C63_best.
Print Assumptions C63_capabilities.
Print Assumptions C63_revoked.
Print Assumptions C63_delegated.
Print Assumptions C63_same_people.
