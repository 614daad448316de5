(** Memberships and group keys together: proofs. *)
From Coq Require Import Arith Lia.
From stdpp Require Import base list gmap relations.
From Verif Require Import ResModel KeysModel TreeModel TreeSpec TreeOps TreeRun OpsModel CgkaModel.
From Verif Require Import AccessModel GroupModel CgkaSpec GroupSpec GroupHistory GroupTransitive GroupPropsProofs PrekeyModel HiveModel HiveSpec SyncModel.
From Verif Require Import DocModel DocSpec DocKeys.

(** ** Changing the members of one group *)
Lemma tc_first (R : ident -> ident -> Prop) a i : tc R a i <-> exists b, R a b /\ rtc R b i.
Proof.
  split.
  - intros H. inversion H as [? ? X|? b ? X Y]; subst; [exists i; split; [exact X|apply rtc_refl]|exists b; split; [exact X|apply tc_rtc, Y]].
  - intros (b & X & Y). eapply tc_rtc_r; [apply tc_once, X|exact Y].
Qed.
Section rel.
Context (R R' : ident -> ident -> Prop) (x : ident) (Off : forall y z, y <> x -> R y z <-> R' y z).

Lemma away_1 a i : ~ rtc R a x -> rtc R a i -> rtc R' a i.
Proof.
  intros N H. revert N. induction H as [|a b c Hab Hbc IH]; intros N; [apply rtc_refl|].
  eapply rtc_l; [apply Off, Hab; intros ->; apply N, rtc_refl|]. apply IH. intros X. apply N. eapply rtc_l; eauto.
Qed.
Lemma away_2 a i : ~ rtc R a x -> rtc R' a i -> rtc R a i.
Proof.
  intros N H. revert N. induction H as [|a b c Hab Hbc IH]; intros N; [apply rtc_refl|].
  assert (Rab : R a b) by (apply Off; [intros ->; apply N, rtc_refl|exact Hab]).
  eapply rtc_l; [exact Rab|]. apply IH. intros X. apply N. eapply rtc_l; eauto.
Qed.
Lemma away a i : ~ rtc R a x -> rtc R a i <-> rtc R' a i.
Proof. intros N. split; [apply away_1|apply away_2]; exact N. Qed.
Lemma away_tc a i : ~ rtc R a x -> tc R a i <-> tc R' a i.
Proof.
  intros N. rewrite !tc_first. split; intros (b & Hab & Hbi).
  - exists b. split; [apply Off, Hab; intros ->; apply N, rtc_refl|]. apply away_1; [|exact Hbi]. intros X. apply N. eapply rtc_l; eauto.
  - assert (Rab : R a b) by (apply Off; [intros ->; apply N, rtc_refl|exact Hab]). exists b. split; [exact Rab|]. apply away_2; [|exact Hbi].
    intros X. apply N. eapply rtc_l; eauto.
Qed.

Section join.
Context (w : ident) (J : forall z, R' x z <-> R x z \/ z = w).
Lemma join_sub y z : R y z -> R' y z.
Proof. intros H. destruct (decide (y = x)) as [->|N]; [apply J; auto|now apply Off]. Qed.
Lemma join_rtc y z : rtc R y z -> rtc R' y z.
Proof. induction 1; [apply rtc_refl|eapply rtc_l; [apply join_sub; eassumption|assumption]]. Qed.
Lemma join_tc j i : tc R' j i <-> tc R j i \/ (rtc R j x /\ rtc R w i).
Proof.
  split.
  - induction 1 as [j i H|j k i H Hk IH].
    + destruct (decide (j = x)) as [->|N]; [|left; apply tc_once, Off; assumption]. apply J in H as [H| ->]; [left; apply tc_once, H|right; split; apply rtc_refl].
    + assert (X : R j k \/ (j = x /\ k = w)). { destruct (decide (j = x)) as [->|N]; [apply J in H as [H| ->]; auto|left; apply Off; assumption]. }
      destruct X as [X|[-> ->]].
      * destruct IH as [IH|[IH1 IH2]]; [left; eapply tc_l; eauto|right; split; [eapply rtc_l; eauto|exact IH2]].
      * right. split; [apply rtc_refl|]. destruct IH as [IH|[_ IH]]; [apply tc_rtc, IH|exact IH].
  - intros [H|[H1 H2]].
    + induction H; [apply tc_once, join_sub; assumption|eapply tc_l; [apply join_sub; eassumption|assumption]].
    + eapply tc_rtc_l; [apply join_rtc, H1|]. eapply tc_rtc_r; [apply tc_once, J; right; reflexivity|apply join_rtc, H2].
Qed.
(** No loop was made: nothing changed behind [w], nor between [x] and those that contain it. *)
Context (A : ~ tc R' x x).
Lemma join_apart : ~ rtc R w x.
Proof. intros H. apply A, join_tc. right. split; [apply rtc_refl|exact H]. Qed.
Lemma join_behind i : rtc R' w i <-> rtc R w i.
Proof. symmetry. apply away, join_apart. Qed.
Lemma join_above j : tc R' j x <-> tc R j x.
Proof. rewrite join_tc. pose proof join_apart. tauto. Qed.
End join.

Section leave.
Context (t : ident) (L : forall z, R' x z <-> R x z /\ z <> t).
Lemma leave_sub y z : R' y z -> R y z.
Proof. intros H. destruct (decide (y = x)) as [->|N]; [apply L, H|now apply Off]. Qed.
Lemma leave_tc j i : tc R' j i -> tc R j i.
Proof. induction 1; [apply tc_once, leave_sub; assumption|eapply tc_l; [apply leave_sub; eassumption|assumption]]. Qed.
Lemma leave_lost j i : tc R j i -> tc R' j i \/ (rtc R' j x /\ R x t /\ rtc R t i).
Proof.
  induction 1 as [j i H|j k i H Hk IH].
  - destruct (decide (j = x)) as [->|N]; [|left; apply tc_once, Off; assumption].
    destruct (decide (i = t)) as [->|N]; [right; repeat split; [apply rtc_refl|exact H|apply rtc_refl]|left; apply tc_once, L; auto].
  - assert (X : R' j k \/ (j = x /\ k = t)). { destruct (decide (j = x)) as [->|N]; [|left; apply Off; assumption]. destruct (decide (k = t)) as [->|N]; [auto|left; apply L; auto]. }
    destruct X as [X|[-> ->]].
    + destruct IH as [IH|(IH1 & IH2)]; [left; eapply tc_l; eauto|right; split; [eapply rtc_l; eauto|exact IH2]].
    + right. split; [apply rtc_refl|]. split; [exact H|apply tc_rtc, Hk].
Qed.
End leave.
End rel.

(** ** Which group an operation is about *)
Section subjects.
Context (order : gset nat -> list nat) (e : env).
Lemma history_subject ops g : history order ops g -> forall o, o ∈ ops -> op_subject o = gr_id g.
Proof.
  induction 1 as [id ps c g N ND E|d g E1 E2 E|e0 ops g d g' H IH Hp R|e0 ops g r g' H IH Hp R]; intros o Ho.
  - destruct (rebuild_keeps _ _ _ E) as (-> & _). apply elem_of_list_fmap in Ho as (x & -> & _). reflexivity.
  - destruct (rebuild_keeps _ _ _ E) as (-> & _). apply elem_of_list_singleton in Ho as ->. cbn. destruct d as [? ? ? ? p]. cbn in E1. subst p. reflexivity.
  - destruct (accepted_delegation _ _ _ _ _ R) as (S & _ & _ & B). destruct (rebuild_keeps _ _ _ B) as (-> & _). apply elem_of_cons in Ho as [->|Ho]; [exact S|apply IH, Ho].
  - destruct (accepted_revocation _ _ _ _ _ R) as (S & _ & B). destruct (rebuild_keeps _ _ _ B) as (-> & _). apply elem_of_cons in Ho as [->|Ho]; [exact S|apply IH, Ho].
Qed.
Lemma revoke_one_subject g signer d proof content sigs g' r sigs' : revoke_one order e g signer d proof content sigs = GOk (g', r, sigs') ->
  gr_id g' = gr_id g /\ r_subject r = gr_id g.
Proof.
  unfold revoke_one. destruct sigs as [|s sigs]; [discriminate|]. cbv zeta. destruct (receive_revocation _ _ _ _) as [g1|] eqn:R; [|discriminate]. intros [= <- <- <-].
  destruct (accepted_revocation _ _ _ _ _ R) as (S & _ & B). destruct (rebuild_keeps _ _ _ B) as (-> & _). auto.
Qed.
Lemma revoke_as_admin_subject signer target d content mine : forall g sigs g' rs sigs', revoke_as_admin order e g signer target d mine content sigs = GOk (g', rs, sigs') ->
  gr_id g' = gr_id g /\ forall r, r ∈ rs -> r_subject r = gr_id g.
Proof.
  induction mine as [|m mine IH]; intros g sigs g' rs sigs' E; cbn in E.
  { injection E as <- <- <-. split; [reflexivity|]. intros r Hr. inversion Hr. }
  destruct (negb _ || negb _); [eapply IH; eauto|]. destruct (revoke_one _ _ _ _ _ _ _ _) as [[[g1 r1] sg1]|] eqn:R; [|discriminate]. apply revoke_one_subject in R as [A1 A2].
  destruct (revoke_as_admin _ _ g1 _ _ _ _ _ _) as [[[g2 rs2] sg2]|] eqn:R2; [|discriminate]. injection E as <- <- <-. apply IH in R2 as [B1 B2]. rewrite A1 in B1, B2.
  split; [exact B1|]. intros r Hr. apply elem_of_cons in Hr as [->|Hr]; auto.
Qed.
Lemma revoke_delegation_subject signer target d content g sigs g' rs sigs' : revoke_delegation order e g signer target d content sigs = GOk (g', rs, sigs') ->
  gr_id g' = gr_id g /\ forall r, r ∈ rs -> r_subject r = gr_id g.
Proof.
  unfold revoke_delegation. destruct (revoke_as_admin _ _ _ _ _ _ _ _ _) as [[[g1 rs1] sg1]|] eqn:R1; [|discriminate]. apply revoke_as_admin_subject in R1 as [A1 A2]. cbv zeta.
  assert (Fin : forall p g2 r2 sg2, revoke_one order e g1 signer d p content sg1 = GOk (g2, r2, sg2) -> gr_id g2 = gr_id g /\ forall r, r ∈ rs1 ++ [r2] -> r_subject r = gr_id g).
  { intros p g2 r2 sg2 R. apply revoke_one_subject in R as [B1 B2]. split; [congruence|]. intros r Hr. apply elem_of_app in Hr as [Hr|Hr]; [auto|]. apply elem_of_list_singleton in Hr as ->. congruence. }
  destruct (if d_issuer d =? signer then _ else _) as [p|].
  - destruct (revoke_one _ _ _ _ _ _ _ _) as [[[g2 r2] sg2]|] eqn:R2; [|discriminate]. intros [= <- <- <-]. eapply Fin; eauto.
  - destruct rs1 as [|r1 rs1]; [|intros [= <- <- <-]; auto]. destruct (find_revoker _ _ _ _ _ _) as [[p|]|]; try discriminate.
    destruct (revoke_one _ _ _ _ _ _ _ _) as [[[g2 r2] sg2]|] eqn:R2; [|discriminate]. intros [= <- <- <-]. eapply Fin; eauto.
Qed.
Lemma revoke_delegations_subject signer target content l : forall g sigs g' rs sigs', revoke_delegations order e g signer target l content sigs = GOk (g', rs, sigs') ->
  gr_id g' = gr_id g /\ forall r, r ∈ rs -> r_subject r = gr_id g.
Proof.
  induction l as [|d l IH]; intros g sigs g' rs sigs' E; cbn in E.
  { injection E as <- <- <-. split; [reflexivity|]. intros r Hr. inversion Hr. }
  match type of E with match ?X with _ => _ end = _ => destruct X as [[[g1 rs1] sg1]|] eqn:R1 end; [|discriminate].
  destruct (revoke_delegations _ _ g1 _ _ _ _ _) as [[[g2 rs2] sg2]|] eqn:R2; [|discriminate]. injection E as <- <- <-.
  assert (A : gr_id g1 = gr_id g /\ forall r, r ∈ rs1 -> r_subject r = gr_id g).
  { destruct (signer =? gr_id g); [|eapply revoke_delegation_subject; eauto]. destruct (revoke_one _ _ _ _ _ _ _ _) as [[[g3 r3] sg3]|] eqn:R3; [|discriminate]. injection R1 as <- <- <-.
    apply revoke_one_subject in R3 as [B1 B2]. split; [exact B1|]. intros r Hr. apply elem_of_list_singleton in Hr as ->. exact B2. }
  destruct A as [A1 A2]. apply IH in R2 as [B1 B2]. rewrite A1 in B1, B2. split; [exact B1|]. intros r Hr. apply elem_of_app in Hr as [Hr|Hr]; auto.
Qed.
Lemma add_member_subject g who can signer content s g' d : add_member order e g who can signer content s = GOk (g', d) -> gr_id g' = gr_id g /\ d_subject d = gr_id g.
Proof.
  unfold add_member. cbv zeta. match goal with |- match ?X with _ => _ end = _ -> _ => destruct X as [p|] end; [|discriminate].
  destruct (receive_delegation _ _ _ _) as [g1|] eqn:R; [|discriminate]. intros [= <- <-]. destruct (accepted_delegation _ _ _ _ _ R) as (S & _ & _ & B).
  destruct (rebuild_keeps _ _ _ B) as (-> & _). auto.
Qed.
Lemma redelegate_subject signer target content l : forall g sigs g' ns, redelegate order e g signer target l content sigs = GOk (g', ns) ->
  gr_id g' = gr_id g /\ forall d, d ∈ ns -> d_subject d = gr_id g.
Proof.
  induction l as [|d l IH]; intros g sigs g' ns E; cbn in E.
  { injection E as <- <-. split; [reflexivity|]. intros d Hd. inversion Hd. }
  match type of E with (if ?b then _ else _) = _ => destruct b end; [|eapply IH; eauto]. destruct sigs as [|s sigs]; [discriminate|].
  destruct (add_member _ _ _ _ _ _ _ _) as [[g1 d1]|] eqn:A; [|discriminate]. destruct (redelegate _ _ g1 _ _ _ _ _) as [[g2 ns2]|] eqn:R; [|discriminate]. injection E as <- <-.
  apply add_member_subject in A as [A1 A2]. apply IH in R as [B1 B2]. rewrite A1 in B1, B2. split; [exact B1|]. intros x Hx. apply elem_of_cons in Hx as [->|Hx]; auto.
Qed.
Lemma revoke_member_subject g target retain signer content sigs g' rs ns : revoke_member order e g target retain signer content sigs = GOk (g', rs, ns) ->
  gr_id g' = gr_id g /\ (forall r, r ∈ rs -> r_subject r = gr_id g) /\ (forall d, d ∈ ns -> d_subject d = gr_id g).
Proof.
  unfold revoke_member. cbv zeta. destruct (default [] (gr_members g !! target)) as [|d0 ds].
  { intros [= <- <- <-]. split; [reflexivity|]. split; intros x Hx; inversion Hx. }
  destruct (revoke_delegations _ _ _ _ _ _ _ _) as [[[g1 rs1] sg1]|] eqn:R1; [|discriminate]. apply revoke_delegations_subject in R1 as [A1 A2]. destruct retain.
  - destruct (redelegate _ _ _ _ _ _ _ _) as [[g2 ns2]|] eqn:R2; [|discriminate]. intros [= <- <- <-]. apply redelegate_subject in R2 as [B1 B2]. rewrite A1 in B1, B2. auto.
  - intros [= <- <- <-]. split; [exact A1|]. split; [exact A2|]. intros d Hd. inversion Hd.
Qed.
End subjects.

(** ** Clients *)
Section client.
Context (order : gset nat -> list nat) (Hord : some_order order) (horder : gset digest -> list digest) (rorder : gset (member_id * nat) -> list (member_id * nat)).
Context (pick : ident -> ident -> share_key) (P : mop -> Prop) (WS : well_signed P).

Definition core (h h' : client) : Prop := h_groups h' = h_groups h /\ h_docs h' = h_docs h /\ h_keys h' = h_keys h.
Lemma core_refl h : core h h.
Proof. repeat split. Qed.
Lemma core_trans a b c : core a b -> core b c -> core a c.
Proof. intros (?&?&?) (?&?&?). repeat split; congruence. Qed.
Lemma core_env h h' : core h h' -> h_env h' = h_env h.
Proof. intros (E1 & E2 & _). unfold h_env. congruence. Qed.
Lemma core_tidy h h' : core h h' -> tidy order P h -> tidy order P h'.
Proof.
  intros C. pose proof (core_env _ _ C) as E. destruct C as (E1 & E2 & E3). unfold tidy, has_group. rewrite E, E1, E2, E3. auto.
Qed.
Lemma put_cgka_core h i c : core h (put_cgka h i c).
Proof. repeat split. Qed.
Lemma put_made_core h ds rs : core h (put_made h ds rs) /\ h_cg (put_made h ds rs) = h_cg h.
Proof.
  unfold put_made.
  assert (A : forall ds (h : client), core h (foldl put_dlg h ds) /\ h_cg (foldl put_dlg h ds) = h_cg h).
  { clear. induction ds as [|d ds IH]; intros h; cbn [foldl]; [split; [apply core_refl|reflexivity]|]. destruct (IH (put_dlg h d)) as [A B]. split; [eapply core_trans; [|exact A]; repeat split|exact B]. }
  assert (B : forall rs (h : client), core h (foldl put_rev h rs) /\ h_cg (foldl put_rev h rs) = h_cg h).
  { clear. induction rs as [|d rs IH]; intros h; cbn [foldl]; [split; [apply core_refl|reflexivity]|]. destruct (IH (put_rev h d)) as [A B]. split; [eapply core_trans; [|exact A]; repeat split|exact B]. }
  destruct (A ds h) as [A1 A2]. destruct (B rs (foldl put_dlg h ds)) as [B1 B2]. split; [eapply core_trans; eauto|congruence].
Qed.
Lemma cgka_put h i c j : cgka_of (put_cgka h i c) j = if decide (j = i) then Some c else cgka_of h j.
Proof. unfold cgka_of, put_cgka. cbn. destruct (decide (j = i)) as [->|N]; [apply lookup_insert|apply lookup_insert_ne; congruence]. Qed.

Lemma good_up h j key ops pcs : up_to_date h j key ops pcs <-> exists c, cgka_of h j = Some c /\ good j key c ops pcs.
Proof.
  unfold up_to_date. split; intros (c & E & H); exists c.
  - destruct H as (?&?&?&?&?). split; [exact E|]. split; assumption.
  - destruct H. split; [exact E|]. repeat (split; [assumption|]). assumption.
Qed.
Lemma in_key_at h j c i : cgka_of h j = Some c -> in_key h j i <-> contains_id (c_tree c) i = true.
Proof. intros E. unfold in_key. split; [intros (c' & E' & H); congruence|eauto]. Qed.

Lemma from_sound ops i : (forall o, o ∈ ops -> P o) -> (forall o, o ∈ ops -> op_subject o = i) -> sound ops.
Proof. intros H S. destruct WS as [G D]. split; [intros a b A B; apply G; auto|intros a b A B; apply (D i); auto]. Qed.
Lemma history_sound ops g : history order ops g -> (forall o, o ∈ ops -> P o) -> sound ops.
Proof. intros H Ho. apply (from_sound ops (gr_id g) Ho). apply history_subject with (order := order), H. Qed.

Section tidy.
Context (h : client) (T : tidy order P h).
Lemma env_group i mems : h_env h !! i = Some mems <-> exists g, has_group h i g /\ mems = gr_members g.
Proof.
  unfold h_env. rewrite lookup_fmap. split.
  - destruct ((h_docs h ∪ h_groups h) !! i) as [g|] eqn:X; [|discriminate]. intros [= <-]. exists g. split; [|reflexivity]. apply lookup_union_Some_raw in X as [X|[_ X]]; [right|left]; exact X.
  - intros (g & [G|G] & ->).
    + assert (N : h_docs h !! i = None). { destruct (h_docs h !! i) eqn:X; [|reflexivity]. exfalso. apply (proj1 (proj2 T) i); eauto. }
      rewrite lookup_union_r by exact N. rewrite G. reflexivity.
    + erewrite lookup_union_Some_l by exact G. reflexivity.
Qed.
Lemma env_none i : h_env h !! i = None <-> h_groups h !! i = None /\ h_docs h !! i = None.
Proof. unfold h_env. rewrite lookup_fmap, fmap_None, lookup_union_None. apply and_comm. Qed.
Lemma env_sane : sane (h_env h).
Proof.
  assert (X : forall i mems j l, h_env h !! i = Some mems -> mems !! j = Some l -> l <> [] /\ forall d, d ∈ l -> d_delegate d = j /\ P (MD d)).
  { intros i mems j l E L. apply env_group in E as (g & G & ->). destruct (proj1 T i g G) as (_ & os & H & Hl). pose proof (history_sound os g H Hl) as S.
    destruct (members_wf order Hord os g H (proj1 S) (proj2 S) j l L) as [A B]. split; [exact A|]. intros d Hd. split; [apply B, Hd|]. apply Hl. eapply (member_in order Hord os g); eauto. }
  split.
  - intros i mems j l E L. destruct (X i mems j l E L) as [A B]. split; [exact A|]. intros d Hd. apply B, Hd.
  - intros i mems j l d i' mems' j' l' d' E L Hd E' L' Hd' S. destruct (X i mems j l E L) as [_ B]. destruct (X i' mems' j' l' E' L') as [_ B'].
    assert (Q : MD d = MD d') by (apply (proj1 WS); [apply B, Hd|apply B', Hd'|exact S]). congruence.
Qed.
Lemma caps_spec i g : has_group h i g -> exists caps, caps_of order h g = Some caps /\ forall a, a <> i -> is_Some (caps !! a) <-> belongs (h_env h) i a.
Proof.
  intros G. unfold caps_of. rewrite (proj1 (proj1 T i g G)). apply transitive_members_spec; [exact Hord|exact env_sane|]. apply env_group. eauto.
Qed.
Lemma reaches_spec i g a : has_group h i g -> a <> i -> reaches order h a g = true <-> belongs (h_env h) i a.
Proof. intros G N. destruct (caps_spec i g G) as (caps & E & H). unfold reaches. rewrite E, bool_decide_eq_true. apply H, N. Qed.
Lemma no_loops : any_loop order h = false -> forall x, ~ belongs (h_env h) x x.
Proof.
  intros A x B. assert (exists y, direct (h_env h) x y /\ rtc (direct (h_env h)) y x) as (y & (mems & E & Y) & R) by (apply tc_first, B).
  assert (L : loops order h x = true).
  { unfold loops. rewrite E. apply existsb_exists. exists y. split; [apply elem_of_list_In, elem_of_elements, elem_of_dom, Y|]. unfold locks_group.
    assert (Z : is_Some (h_env h !! y)). { inversion R as [|? z ? (m & Em & _)]; subst; eauto. }
    destruct Z as [my Ey]. rewrite Ey. destruct (Nat.eqb_spec y x) as [->|N]; [reflexivity|]. cbn [orb].
    destruct (transitive_members_spec order (h_env h) y my Hord env_sane Ey) as (caps & -> & K). apply bool_decide_eq_true, K; [congruence|].
    apply rtc_belongs in R as [->|R]; [contradiction|exact R]. }
  assert (any_loop order h = true); [|congruence]. apply existsb_exists. exists x. split; [apply elem_of_list_In, elem_of_elements, elem_of_dom; eauto|exact L].
Qed.
Lemma pick_spec a j : exists l, pick_prekeys order pick h a j = Some l /\ forall m, m ∈ map fst l <-> stands_for (h_env h) a m.
Proof.
  destruct (individual_ids_spec order Hord (h_env h) env_sane a) as (s & E & H). unfold pick_prekeys. rewrite E. eexists. split; [reflexivity|].
  intros m. rewrite map_map. cbn [fst]. rewrite map_id. rewrite (Hord s), elem_of_elements. apply H.
Qed.
Lemma behind_spec l : exists s, behind order h l = Some s /\ forall m, m ∈ s <-> exists d, d ∈ l /\ stands_for (h_env h) (d_delegate d) m.
Proof.
  induction l as [|d l (s & E & H)]; cbn [behind].
  - exists ∅. split; [reflexivity|]. intros m. split; [intros X; apply not_elem_of_empty in X; contradiction|intros (d & X & _); inversion X].
  - destruct (individual_ids_spec order Hord (h_env h) env_sane (d_delegate d)) as (r & -> & K). rewrite E. exists (r ∪ s). split; [reflexivity|]. intros m.
    rewrite elem_of_union, K, H. unfold stands_for. split.
    + intros [X|(d' & X & Y)]; [exists d; split; [left|exact X]|exists d'; split; [right; exact X|exact Y]].
    + intros (d' & X & Y). apply elem_of_cons in X as [->|X]; [left; exact Y|right; eauto].
Qed.
End tidy.
End client.
