(** The other side of secrecy: what is published lets every member derive the current key. *)
From Coq Require Import Arith Lia.
From stdpp Require Import base list gmap.
From Verif Require Import ResModel KeysModel TreeModel TreeMathModel TreeMathSpec TreeMathProofs TreeSpec TreeOps TreeView TreeProofs TreeInv TreeRun SecrecySpec SecrecyProofs TreePropsProofs SecrecyTime.

Definition all_published (t : tree) (pcs : list path_change) : Prop :=
  forall k j v x e, innerv t k j = Some [v] -> v_sk v !! x = Some e -> published pcs e.

Lemma step_all_published t h g op t' o pcs : Inv t h -> step_ok t h g op t' o -> all_published t pcs ->
  all_published t' (pcs ++ match o with Some pc => [pc] | None => [] end).
Proof.
  intros V St AP.
  destruct St as [op Es Nu Nr Na | id pk t' i h'' Ng Hh D | id i m t' Hg R | id sk rng i vs rng' Ei EV U]; rewrite ?app_nil_r; intros k j v x e E Ex.
  - eapply AP; eauto.
  - rewrite (ad_inner _ _ _ _ _ _ D) in E. destruct (decide _); [discriminate|]. eapply AP; eauto.
  - pose proof (innerv_range _ _ _ _ _ (rm_shape _ _ _ _ _ _ R) E) as [Hk _].
    assert (Nj : forall i', i' = i \/ m < i' < t_next t -> j <> anc i' (S k)).
    { intros i' Pi ->. rewrite (rm_blank _ _ _ _ _ _ R) in E by (assumption || lia). discriminate. }
    rewrite (rm_keep _ _ _ _ _ _ R) in E by exact Nj. eapply AP; eauto.
  - apply published_app. rewrite (up_inner _ _ _ _ _ _ _ U) in E. destruct (decide _) as [[Hk ->]|Nd]; [|left; eapply AP; eauto].
    destruct (vs !! k) as [v'|] eqn:Lk; [|discriminate]. injection E as ->. right. apply published_path. eauto.
Qed.
Lemma reachable_all_published id pk ops t pcs : reachable id pk ops t pcs -> all_published t pcs.
Proof.
  revert t pcs; induction ops as [|op ops IH] using rev_ind; intros t pcs (t0 & E0 & E).
  - destruct (tree_new_spec id pk) as (t0' & E0' & _ & _ & _ & _ & Hin). rewrite E0' in E0. injection E0 as <-.
    cbn [run] in E. injection E as <- <-. intros k j v x e. rewrite Hin. discriminate.
  - apply run_snoc in E as (t1 & pcs1 & o & R & St & ->). assert (R1 : reachable id pk ops t1 pcs1) by (exists t0; auto).
    destruct (reachable_inv _ _ _ _ _ R1) as (h & V & A). destruct (op_step_inv _ _ _ _ _ _ V A St) as (h' & _ & _ & _ & SO).
    eapply step_all_published; eauto.
Qed.

Lemma derive_sym a b : derive_symmetric_key a b = derive_symmetric_key b a.
Proof. unfold derive_symmetric_key, pub. rewrite Nat.min_comm, Nat.max_comm. reflexivity. Qed.

(** The highest node with a key on the way from a leaf up to some level. *)
Lemma top_on_path t i p : nkey t 0 i = Some p -> forall k, exists k0, k0 <= k /\ in_resolution t k (anc i k) k0 (anc i k0).
Proof.
  intros Hp. induction k as [|k (k0 & L0 & B & Sm & Hi)].
  - exists 0. split; [lia|]. split; [apply below_refl|]. rewrite anc_0, Hp. split; [eauto|]. intros k1 j1 L1 _ [L2 _]. lia.
  - destruct (nkey t (S k) (anc i (S k))) as [q|] eqn:E.
    + exists (S k). split; [lia|]. split; [apply below_refl|]. rewrite E. split; [eauto|]. intros k1 j1 L1 _ [L2 _]. lia.
    + exists k0. split; [lia|]. split; [eapply below_trans; [exact B|apply below_anc_S]|]. split; [exact Sm|]. intros k1 j1 L1 B1 B2.
      destruct (decide (k1 = S k)) as [->|N].
      * apply below_level_eq in B2 as ->. exact E.
      * apply Hi; [exact L1|exact B1|]. eapply below_mid; [exact B|exact B1|]. destruct B2. lia.
Qed.

Lemma member_derives t h pcs i p (K : secret_key -> Prop) : Inv t h -> all_published t pcs -> nkey t 0 i = Some p -> K p ->
  forall k q, nkey t k (anc i k) = Some q -> derivable K (published pcs) q.
Proof.
  intros V AP Hp Kp k. induction (lt_wf k) as [k _ IH]. intros q E. destruct k as [|k].
  - rewrite anc_0, Hp in E. injection E as <-. apply derivable_known, Kp.
  - apply nkey_inner in E as (v & Ev & <-). destruct (inv_inner _ _ V _ _ _ Ev) as (v' & Es & c & eph & Hc & Sl). injection Es as <-.
    assert (Hc' : c / 2 = anc i k / 2) by (rewrite Hc, <- anc_S'; reflexivity).
    assert (C : c = anc i k \/ sib c = anc i k).
    { destruct (even_odd_case c) as [E1|E1], (even_odd_case (anc i k)) as [E2|E2]; rewrite Hc' in E1.
      - left. congruence.
      - right. rewrite E1, sib_even. symmetry. exact E2.
      - right. rewrite E1, sib_odd. symmetry. exact E2.
      - left. congruence. }
    destruct C as [->|C].
    + set (e := encrypt_secret (v_pk v) (v_encrypter v) eph). assert (Le : v_sk v !! node k (anc i k) = Some e) by (apply (sl_entries _ _ _ _ _ Sl); auto).
      change (v_pk v) with (es_msg e). eapply (derivable_open _ _ e (v_encrypter v) eph); [eapply AP; eauto| |reflexivity].
      apply (IH k); [lia|apply Sl].
    + destruct (top_on_path t i p Hp k) as (k0 & L0 & Re). rewrite <- C in Re. pose proof Re as (_ & [r Er] & _).
      set (e := encrypt_secret (v_pk v) (v_encrypter v) r).
      assert (Le : v_sk v !! node k0 (anc i k0) = Some e) by (apply (sl_entries _ _ _ _ _ Sl); right; exists k0, (anc i k0), r; auto).
      change (v_pk v) with (es_msg e). eapply (derivable_open _ _ e r (v_encrypter v)); [eapply AP; eauto| |apply derive_sym].
      apply (IH k0); [lia|exact Er].
Qed.
