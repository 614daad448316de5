(** Proofs about calls that fail. *)
From Coq Require Import Arith Lia.
From stdpp Require Import base list gmap relations.
From Verif Require Import ResModel KeysModel TreeModel TreeSpec TreeOps TreeRun OpsModel CgkaModel CgkaSpec CgkaProofs CgkaPropsProofs NetProofs.
From Verif Require Import AccessModel GroupModel GroupSpec GroupPropsProofs PrekeyModel HiveModel HiveSpec SyncModel.
From Verif Require Import DocModel DocSpec DocKeys DocProofs DocEffects FailModel FailSpec.

(** ** What was done so far, and the error *)

Section so_far.
Context (order : gset nat -> list nat) (e : env).

Lemma as_admin_eq signer target d content mine : forall g sigs,
  revoke_as_admin order e g signer target d mine content sigs =
  match as_admin_so_far order e g signer target d mine content sigs with (g', rs, GOk s) => GOk (g', rs, s) | (_, _, GErr er) => GErr er end.
Proof.
  induction mine as [|m mine IH]; intros g sigs; cbn [revoke_as_admin as_admin_so_far]; [reflexivity|]. destruct (_ || _); [apply IH|].
  destruct (revoke_one order e g signer d (Some m) content sigs) as [[[g1 r] sigs1]|er]; [|reflexivity]. rewrite IH.
  destruct (as_admin_so_far order e g1 signer target d mine content sigs1) as [[g2 rs] [s|er]]; reflexivity.
Qed.
Lemma one_eq signer target d content g sigs :
  revoke_delegation order e g signer target d content sigs =
  match one_so_far order e g signer target d content sigs with (g', rs, GOk s) => GOk (g', rs, s) | (_, _, GErr er) => GErr er end.
Proof.
  unfold revoke_delegation, one_so_far. rewrite as_admin_eq. destruct (as_admin_so_far _ _ _ _ _ _ _ _ _) as [[g1 rs] [s|er]]; [|reflexivity].
  destruct (if d_issuer d =? signer then Some d else List.find (fun a => d_issuer a =? signer) (lineage d)) as [p|].
  - destruct (revoke_one _ _ _ _ _ _ _ _) as [[[g2 r] s2]|er]; reflexivity.
  - destruct rs; [|reflexivity]. destruct (find_revoker _ _ _ _ _ _) as [[p|]|er]; try reflexivity.
    destruct (revoke_one _ _ _ _ _ _ _ _) as [[[g2 r] s2]|er]; reflexivity.
Qed.
Lemma all_eq signer target content l : forall g sigs,
  revoke_delegations order e g signer target l content sigs =
  match all_so_far order e g signer target l content sigs with (g', rs, GOk s) => GOk (g', rs, s) | (_, _, GErr er) => GErr er end.
Proof.
  induction l as [|d l IH]; intros g sigs; cbn [revoke_delegations all_so_far]; [reflexivity|]. destruct (signer =? gr_id g).
  - destruct (revoke_one order e g signer d None content sigs) as [[[g1 r] s1]|er]; [|reflexivity]. rewrite IH.
    destruct (all_so_far order e g1 signer target l content s1) as [[g2 rs] [s|er]]; reflexivity.
  - rewrite one_eq. destruct (one_so_far order e g signer target d content sigs) as [[g1 rs] [s1|er]]; [|reflexivity]. rewrite IH.
    destruct (all_so_far order e g1 signer target l content s1) as [[g2 rs2] [s|er]]; reflexivity.
Qed.
Lemma regrant_eq signer target content l : forall g sigs,
  redelegate order e g signer target l content sigs =
  match regrant_so_far order e g signer target l content sigs with (g', ds, GOk _) => GOk (g', ds) | (_, _, GErr er) => GErr er end.
Proof.
  induction l as [|d l IH]; intros g sigs; cbn [redelegate regrant_so_far]; [reflexivity|]. destruct (_ && _); [|apply IH].
  destruct sigs as [|s sigs]; [reflexivity|]. destruct (add_member _ _ _ _ _ _ _ _) as [[g1 d']|er]; [|reflexivity]. rewrite IH.
  destruct (regrant_so_far order e g1 signer target l content sigs) as [[g2 ds] [u|er]]; reflexivity.
Qed.
Lemma revoke_eq g target retain signer content sigs :
  revoke_member order e g target retain signer content sigs =
  match revoke_so_far order e g target retain signer content sigs with (g', rs, ds, GOk _) => GOk (g', rs, ds) | (_, _, _, GErr er) => GErr er end.
Proof.
  unfold revoke_member, revoke_so_far. destruct (default [] (gr_members g !! target)) as [|d l]; [reflexivity|]. rewrite all_eq.
  destruct (all_so_far _ _ _ _ _ _ _ _) as [[g1 rs] [s|er]]; [|reflexivity]. destruct retain; [|reflexivity]. rewrite regrant_eq.
  destruct (regrant_so_far _ _ _ _ _ _ _ _) as [[g2 ds] [[]|er]]; reflexivity.
Qed.

(** With one grant to revoke, which is not the caller's own, nothing was done before the error. *)
Lemma as_admin_none g signer target d content mine sigs : (forall m, m ∈ mine -> d_delegate m <> target) ->
  as_admin_so_far order e g signer target d mine content sigs = (g, [], GOk sigs).
Proof.
  induction mine as [|m mine IH]; intros N; cbn [as_admin_so_far]; [reflexivity|].
  assert (d_delegate m =? target = false) as -> by (apply Nat.eqb_neq, N; left). cbn [negb orb]. apply IH. intros m' X. apply N. right. exact X.
Qed.
Lemma single_untouched g target signer content sigs g' rs ds er : (forall m, m ∈ default [] (gr_members g !! signer) -> d_delegate m <> target) ->
  length (default [] (gr_members g !! target)) <= 1 ->
  revoke_so_far order e g target false signer content sigs = (g', rs, ds, GErr er) -> g' = g /\ rs = [] /\ ds = [].
Proof.
  intros N L. unfold revoke_so_far. destruct (default [] (gr_members g !! target)) as [|d [|d2 l]]; [discriminate| |cbn in L; lia]. cbn [all_so_far].
  destruct (signer =? gr_id g).
  - destruct (revoke_one _ _ _ _ _ _ _ _) as [[[g1 r] s1]|er1]; intros Q; [discriminate|]. injection Q as <- <- <- _. auto.
  - unfold one_so_far. rewrite (as_admin_none _ _ _ _ _ _ _ N). destruct (if d_issuer d =? signer then Some d else List.find (fun a => d_issuer a =? signer) (lineage d)) as [p|].
    + destruct (revoke_one _ _ _ _ _ _ _ _) as [[[g2 r] s2]|er2]; intros Q; [discriminate|]. injection Q as <- <- <- _. auto.
    + destruct (find_revoker _ _ _ _ _ _) as [[p|]|er2].
      * destruct (revoke_one _ _ _ _ _ _ _ _) as [[[g2 r] s2]|er2]; intros Q; [discriminate|]. injection Q as <- <- <- _. auto.
      * intros Q. injection Q as <- <- <- _. auto.
      * intros Q. injection Q as <- <- <- _. auto.
Qed.
End so_far.

(** ** Keys that are up to date *)

Section keys.
Context (horder : gset digest -> list digest) (rorder : gset (member_id * nat) -> list (member_id * nat)).

Lemma add_keys_ends j key l : forall c ops pcs hs c' r, good j key c ops pcs -> add_keys horder rorder c l hs = (c', r) -> r = OutOfFuel \/ exists x, r = Ok x.
Proof.
  induction l as [|[i pk] l IH]; intros c ops pcs hs c' r G Q; cbn [add_keys] in Q; [injection Q as <- <-; right; eauto|].
  destruct hs as [|x hs]; [injection Q as <- <-; auto|]. destruct (add_good horder rorder j key c ops pcs i pk x G) as (c1 & o & E & G1 & _). rewrite E in Q.
  destruct (add_keys horder rorder c1 l hs) as [c2 r2] eqn:A. destruct (IH _ _ _ _ _ _ G1 A) as [-> |[y ->]]; injection Q as <- <-; [auto|right; eauto].
Qed.
Lemma remove_keys_ends j key l : j ∉ l -> forall c ops pcs hs c' r, good j key c ops pcs -> remove_keys horder rorder c l hs = (c', r) -> r = OutOfFuel \/ exists x, r = Ok x.
Proof.
  induction l as [|i l IH]; intros N c ops pcs hs c' r G Q; cbn [remove_keys] in Q; [injection Q as <- <-; right; eauto|].
  apply not_elem_of_cons in N as [N1 N2].
  destruct hs as [|x hs]; [injection Q as <- <-; auto|]. destruct (remove_good horder rorder j key c ops pcs i x G) as (c1 & o & E & G1 & _); [congruence|]. rewrite E in Q.
  destruct (remove_keys horder rorder c1 l hs) as [c2 r2] eqn:A. destruct (IH N2 _ _ _ _ _ _ G1 A) as [-> |[y ->]]; injection Q as <- <-; [auto|right; eauto].
Qed.
Lemma kept_good h j : kept h j -> exists c key ops pcs, cgka_of h j = Some c /\ good j key c ops pcs.
Proof. intros (key & ops & pcs & U). apply good_up in U as (c & E & G). eauto 6. Qed.
Lemma doc_add_fails h j l hs h' x : kept h j -> doc_add_keys horder rorder h j l hs = (h', DErr x) -> x = DFuel.
Proof.
  intros K. destruct (kept_good _ _ K) as (c & key & ops & pcs & E & G). unfold doc_add_keys. rewrite E. destruct l as [|y l]; [discriminate|].
  destruct (add_keys horder rorder c (y :: l) hs) as [c' r] eqn:A. destruct (add_keys_ends _ _ _ _ _ _ _ _ _ G A) as [-> |[z ->]]; intros Q; injection Q; auto; discriminate.
Qed.
Context (order : gset nat -> list nat) (Hord : some_order order) (pick : ident -> ident -> share_key) (P : mop -> Prop) (WS : well_signed P).

Definition all_kept (h : client) : Prop := forall j, is_Some (h_docs h !! j) -> kept h j.
Lemma add_to_docs_fails gid who hs docs : forall h h' x, all_kept h -> add_to_docs order horder rorder pick h gid who docs hs = (h', DErr x) -> x = DFuel.
Proof.
  induction docs as [|j docs IH]; intros h h' x K Q; cbn [add_to_docs] in Q; [discriminate|]. destruct (h_docs h !! j) as [g|] eqn:Dj; [|exact (IH _ _ _ K Q)].
  destruct (negb _); [exact (IH _ _ _ K Q)|]. destruct (pick_prekeys order pick h who j) as [l|]; [|injection Q; auto].
  destruct (doc_add_keys horder rorder h j l (hs j)) as [h1 r] eqn:A. destruct r as [o|y].
  - destruct (doc_add_moved horder rorder pick _ _ _ _ _ _ A) as (C & O & M).
    assert (K1 : all_kept h1).
    { intros z Z. destruct C as (_ & E2 & _). rewrite E2 in Z. destruct (decide (z = j)) as [-> |N]; [exact (proj1 (moved_kept _ _ _ _ M (K _ Z)))|exact (same_kept h h1 z (O z N) (K z Z))]. }
    destruct (add_to_docs order horder rorder pick h1 gid who docs hs) as [h2 r2] eqn:A2. destruct r2 as [o2|y]; [discriminate|]. injection Q as <- <-. exact (IH _ _ _ K1 A2).
  - injection Q as <- <-. exact (doc_add_fails _ _ _ _ _ _ (K j (ex_intro _ _ Dj)) A).
Qed.
Lemma remove_from_docs_fails gid ids hs docs : forall h h' x, all_kept h -> (forall m, m ∈ ids -> h_docs h !! m = None) ->
  remove_from_docs order horder rorder h gid ids docs hs = (h', DErr x) -> x = DFuel.
Proof.
  induction docs as [|j docs IH]; intros h h' x K I Q; cbn [remove_from_docs] in Q; [discriminate|]. destruct (h_docs h !! j) as [g|] eqn:Dj; [|exact (IH _ _ _ K I Q)].
  destruct (caps_of order h g) as [caps|]; [|injection Q; auto]. destruct (bool_decide _); [|exact (IH _ _ _ K I Q)].
  destruct (kept_good _ _ (K j (ex_intro _ _ Dj))) as (c & key & ops & pcs & E & G). rewrite E in Q.
  set (gone := order (filter _ ids)) in Q. assert (N : j ∉ gone). { unfold gone. rewrite (Hord _), elem_of_elements, elem_of_filter. intros [_ X]. apply I in X. congruence. }
  destruct (try_remove_keys horder rorder c gone (hs j)) as [c' r] eqn:A. pose proof A as A'. rewrite (try_remove_keys_good horder rorder j key gone N _ _ _ _ G) in A.
  destruct (remove_keys_ends _ _ _ N _ _ _ _ _ _ G A) as [-> |[y ->]]; [injection Q; auto|].
  assert (K1 : all_kept (put_cgka h j c')).
  { intros z Z. destruct (decide (z = j)) as [-> |Nz]; [|apply (same_kept h); [rewrite cgka_put, decide_False by exact Nz; reflexivity|apply K, Z]].
    exact (proj1 (moved_kept _ _ _ _ (try_remove_moved horder rorder _ _ _ _ _ _ _ N E A') (K j Z))). }
  destruct (remove_from_docs order horder rorder (put_cgka h j c') gid ids docs hs) as [h2 r2] eqn:A2. destruct r2 as [o2|z]; [discriminate|]. injection Q as <- <-.
  exact (IH _ _ _ K1 I A2).
Qed.

(** ** Adding *)

Lemma made_kept h ds rs : all_kept h -> all_kept (put_made h ds rs).
Proof.
  intros K j D. destruct (put_made_core h ds rs) as [(_ & E & _) Ec]. rewrite E in D. apply (same_kept h); [unfold cgka_of; rewrite Ec; reflexivity|apply K, D].
Qed.
Lemma put_group_kept h i g : all_kept h -> all_kept (put_group h i g).
Proof. intros K j D. exact (same_kept h _ j eq_refl (K j D)). Qed.
Lemma put_doc_kept h i g g0 : h_docs h !! i = Some g0 -> all_kept h -> all_kept (put_doc h i g).
Proof.
  intros E K j D. apply (same_kept h _ j eq_refl). apply K. cbn [h_docs put_doc] in D. destruct (decide (j = i)) as [-> |N]; [eauto|]. rewrite lookup_insert_ne in D by congruence. exact D.
Qed.
Lemma add_fails h i who can content s hs h' x : all_kept h -> hive_add_member order horder rorder pick h i who can content s hs = (h', DErr x) -> real x -> h' = h.
Proof.
  intros K Q [N1 N2]. unfold hive_add_member in Q. destruct (any_loop order h); [injection Q as _ <-; contradiction|].
  destruct (h_groups h !! i) as [g|].
  - destruct (add_member _ _ _ _ _ _ _ _) as [[g' d]|er]; [|injection Q; auto]. cbv zeta in Q.
    destruct (_ || _); [injection Q as _ <-; contradiction|]. destruct (is_reader can); [|discriminate].
    destruct (add_to_docs _ _ _ _ _ _ _ _ _) as [h2 r2] eqn:A. destruct r2 as [o|y]; [discriminate|]. injection Q as _ <-.
    destruct N2. exact (add_to_docs_fails _ _ _ _ _ _ _ (made_kept _ _ _ (put_group_kept _ _ _ K)) A).
  - destruct (h_docs h !! i) as [g|] eqn:Di; [|injection Q; auto]. destruct (add_member _ _ _ _ _ _ _ _) as [[g' d]|er]; [|injection Q; auto]. cbv zeta in Q.
    destruct (_ || _); [injection Q as _ <-; contradiction|]. destruct (is_reader can); [|discriminate].
    destruct (pick_prekeys _ _ _ _ _) as [l|]; [|injection Q as _ <-; contradiction].
    destruct (doc_add_keys _ _ _ _ _ _) as [h2 r2] eqn:A. destruct r2 as [o|y]; [discriminate|]. injection Q as _ <-.
    destruct N2. refine (doc_add_fails _ _ _ _ _ _ (made_kept _ _ _ (put_doc_kept h i g' g Di K) i _) A).
    destruct (put_made_core (put_doc h i g') [d] []) as [(_ & E & _) _]. rewrite E. cbn [h_docs put_doc]. rewrite lookup_insert. eauto.
Qed.

(** ** Removing *)

Lemma put_same_group (h : client) i g : h_groups h !! i = Some g -> put_group h i g = h.
Proof. intros E. destruct h as [k gs ds dl rv cg pe]. unfold put_group. cbn in *. rewrite (insert_id gs i g E). reflexivity. Qed.
Lemma put_same_doc (h : client) i g : h_docs h !! i = Some g -> put_doc h i g = h.
Proof. intros E. destruct h as [k gs ds dl rv cg pe]. unfold put_doc. cbn in *. rewrite (insert_id ds i g E). reflexivity. Qed.
Lemma ids_none h i g target : tidy order P h -> has_group h i g -> forall ids, behind order h (default [] (gr_members g !! target)) = Some ids -> forall m, m ∈ ids -> h_env h !! m = None.
Proof.
  intros T G ids E m Hm. destruct (behind_spec order Hord P WS h T (default [] (gr_members g !! target))) as (s & E' & X). rewrite E in E'. injection E' as <-.
  apply X in Hm as (d & _ & _ & N). exact N.
Qed.
Lemma revoke_errors h i target retain content sigs hs h' x : tidy order P h -> all_kept h ->
  hive_revoke_member order horder rorder h i target retain content sigs hs = (h', DErr x) -> real x -> (exists er, x = DGroup er) \/ (h' = h /\ x = DUnknown).
Proof.
  intros T K Q [N1 N2]. unfold hive_revoke_member in Q. destruct (any_loop order h); [injection Q as _ <-; contradiction|].
  destruct (h_groups h !! i) as [g|] eqn:Gi.
  - destruct (behind order h _) as [ids|] eqn:B; [|injection Q as _ <-; contradiction].
    destruct (revoke_member _ _ _ _ _ _ _ _) as [[[g1 rs] ds]|er]; [|injection Q as _ <-; left; eauto].
    destruct (revoking_hangs _ _ _ _ _); [injection Q as _ <-; contradiction|]. cbv zeta in Q. destruct (bool_decide _); [discriminate|].
    destruct (remove_from_docs _ _ _ _ _ _ _ _) as [h2 r2] eqn:A. destruct r2 as [o|y]; [discriminate|]. injection Q as _ <-. destruct N2.
    refine (remove_from_docs_fails _ _ _ _ _ _ _ (made_kept _ _ _ (put_group_kept _ _ _ K)) _ A).
    intros m Hm. destruct (put_made_core (put_group h i g1) ds rs) as [(_ & E & _) _]. rewrite E. cbn [h_docs put_group].
    pose proof (ids_none h i g target T (or_introl Gi) ids B m Hm) as Z. apply env_none in Z. tauto.
  - destruct (h_docs h !! i) as [g|] eqn:Di; [|injection Q as <- <-; auto]. destruct (behind order h _) as [ids|] eqn:B; [|injection Q as _ <-; contradiction].
    destruct (revoke_member _ _ _ _ _ _ _ _) as [[[g1 rs] ds]|er]; [|injection Q as _ <-; left; eauto].
    destruct (revoking_hangs _ _ _ _ _); [injection Q as _ <-; contradiction|]. cbv zeta in Q. destruct (group_individual_ids _ _ _) as [still|]; [|injection Q as _ <-; contradiction].
    destruct (order (ids ∖ still)) as [|y gone] eqn:O; [discriminate|].
    assert (Ki : kept (put_made (put_doc h i g1) ds rs) i).
    { apply (made_kept _ _ _ (put_doc_kept h i g1 g Di K)). destruct (put_made_core (put_doc h i g1) ds rs) as [(_ & E & _) _]. rewrite E. cbn [h_docs put_doc]. rewrite lookup_insert. eauto. }
    destruct (kept_good _ _ Ki) as (c & key & ops & pcs & E & G). rewrite E in Q.
    assert (N : i ∉ y :: gone).
    { rewrite <- O, (Hord _), elem_of_elements, elem_of_difference. intros [Z _]. pose proof (ids_none h i g target T (or_intror Di) ids B i Z) as Z1. apply env_none in Z1 as [_ Z1]. congruence. }
    destruct (remove_keys _ _ _ _ _) as [c' r] eqn:A. destruct (remove_keys_ends _ _ _ N _ _ _ _ _ _ G A) as [-> |[z ->]]; [|discriminate]. injection Q as _ <-. contradiction.
Qed.
Lemma no_own h i g signer target : tidy order P h -> has_group h i g -> signer <> target -> forall m, m ∈ default [] (gr_members g !! signer) -> d_delegate m <> target.
Proof.
  intros T G N m Hm. destruct (gr_members g !! signer) as [l|] eqn:E; [|inversion Hm]. cbn in Hm.
  assert (Ee : h_env h !! i = Some (gr_members g)) by (apply (env_group order P h T); eauto).
  destruct (proj1 (env_sane order Hord P WS h T) i _ _ _ Ee E) as [_ X]. rewrite (X m Hm). exact N.
Qed.
Lemma docs_no_group gid ids hs docs : forall h h' er, remove_from_docs order horder rorder h gid ids docs hs <> (h', DErr (DGroup er)).
Proof.
  induction docs as [|j docs IH]; intros h h' er; cbn [remove_from_docs]; [discriminate|]. destruct (h_docs h !! j); [|apply IH]. destruct (caps_of _ _ _); [|discriminate].
  destruct (bool_decide _); [|apply IH]. destruct (cgka_of h j); [|apply IH]. destruct (try_remove_keys _ _ _ _ _) as [c' [o| | |]]; try discriminate.
  destruct (remove_from_docs order horder rorder (put_cgka h j c') gid ids docs hs) as [h4 [o2|y]] eqn:E; [discriminate|]. intros Q. injection Q as -> ->. exact (IH _ _ _ E).
Qed.
Lemma hive_revoke_fails h i target content sigs hs h' x : tidy order P h -> all_kept h -> target <> me h ->
  (forall g, has_group h i g -> length (default [] (gr_members g !! target)) <= 1) ->
  hive_revoke order horder rorder h i target false content sigs hs = (h', DErr x) -> real x -> h' = h.
Proof.
  intros T K Nt L Q R. unfold hive_revoke in Q. destruct (hive_revoke_member order horder rorder h i target false content sigs hs) as [h1 r] eqn:A. destruct r as [o|y]; [discriminate|].
  assert (Rest : forall e, (h1, @DErr (list rev * list dlg * list dop) e) = (h', DErr x) -> y = e -> (forall er, e <> DGroup er) -> h' = h).
  { intros e Q' -> Ne. injection Q' as <- <-. destruct (revoke_errors _ _ _ _ _ _ _ _ _ T K A R) as [[er Z]|[-> _]]; [destruct (Ne _ Z)|reflexivity]. }
  destruct y as [er| | | | |]; try (apply (Rest _ Q eq_refl); congruence). cbv zeta in Q.
  assert (Er : forall g, has_group h i g -> h_groups h !! i = Some g \/ (h_groups h !! i = None /\ h_docs h !! i = Some g) -> (revoke_so_far order (h_env h) g target false (me h) content sigs).2 = GErr er).
  { intros g _ Hg. unfold hive_revoke_member in A. destruct (any_loop order h); [discriminate A|]. destruct Hg as [Hg|[Hg Hg']]; rewrite Hg in A; [|rewrite Hg' in A]; destruct (behind order h _) as [ids|]; try discriminate A;
    rewrite revoke_eq in A; destruct (revoke_so_far _ _ _ _ _ _ _ _) as [[[g1 rs] ds] [u|er']]; cbn [snd]; try (injection A as _ <-; reflexivity); exfalso.
    - destruct (revoking_hangs _ _ _ _ _); [discriminate A|]. cbv zeta in A. destruct (bool_decide _); [discriminate A|]. destruct (remove_from_docs _ _ _ _ _ _ _ _) as [h2 [o|y]] eqn:A2; [discriminate A|]. injection A as _ ->.
      exact (docs_no_group _ _ _ _ _ _ _ A2).
    - destruct (revoking_hangs _ _ _ _ _); [discriminate A|]. cbv zeta in A. destruct (group_individual_ids _ _ _); [|discriminate A]. destruct (order _); [discriminate A|]. destruct (cgka_of _ _); [|discriminate A].
      destruct (remove_keys _ _ _ _ _) as [c' [o| | |]]; discriminate A. }
  destruct (h_groups h !! i) as [g|] eqn:Gi; [|destruct (h_docs h !! i) as [g|] eqn:Di; [|injection Q; auto]].
  - specialize (Er g (or_introl Gi) (or_introl eq_refl)). destruct (revoke_so_far _ _ _ _ _ _ _ _) as [[[g1 rs] ds] e] eqn:S. cbn [snd] in Er. subst e.
    destruct (single_untouched _ _ _ _ _ _ _ _ _ _ _ (no_own h i g (me h) target T (or_introl Gi) (not_eq_sym Nt)) (L g (or_introl Gi)) S) as (-> & -> & ->).
    destruct (revoking_hangs _ _ _ _ _); [injection Q; auto|]. injection Q as <- _. unfold put_made. cbn [foldl]. apply put_same_group, Gi.
  - specialize (Er g (or_intror Di) (or_intror (conj eq_refl eq_refl))). destruct (revoke_so_far _ _ _ _ _ _ _ _) as [[[g1 rs] ds] e] eqn:S. cbn [snd] in Er. subst e.
    destruct (single_untouched _ _ _ _ _ _ _ _ _ _ _ (no_own h i g (me h) target T (or_intror Di) (not_eq_sym Nt)) (L g (or_intror Di)) S) as (-> & -> & ->).
    destruct (revoking_hangs _ _ _ _ _); [injection Q; auto|]. injection Q as <- _. unfold put_made. cbn [foldl]. apply put_same_doc, Di.
Qed.
(** In general the keys of the documents are as before. *)
Lemma hive_revoke_keys h i target retain content sigs hs h' x : tidy order P h -> all_kept h ->
  hive_revoke order horder rorder h i target retain content sigs hs = (h', DErr x) -> real x -> h_cg h' = h_cg h /\ h_keys h' = h_keys h.
Proof.
  intros T K Q R. unfold hive_revoke in Q. destruct (hive_revoke_member order horder rorder h i target retain content sigs hs) as [h1 r] eqn:A. destruct r as [o|y]; [discriminate|].
  assert (Rest : forall e, (h1, @DErr (list rev * list dlg * list dop) e) = (h', DErr x) -> y = e -> (forall er, e <> DGroup er) -> h' = h).
  { intros e Q' -> Ne. injection Q' as <- <-. destruct (revoke_errors _ _ _ _ _ _ _ _ _ T K A R) as [[er Z]|[-> _]]; [destruct (Ne _ Z)|reflexivity]. }
  destruct y as [er| | | | |]; try (rewrite (Rest _ Q eq_refl) by congruence; auto). cbv zeta in Q.
  destruct (h_groups h !! i) as [g|] eqn:Gi; [|destruct (h_docs h !! i) as [g|] eqn:Di; [|injection Q as <- _; auto]];
  destruct (revoke_so_far _ _ _ _ _ _ _ _) as [[[g1 rs] ds] e]; (destruct (revoking_hangs _ _ _ _ _); [injection Q as <- _; auto|]); injection Q as <- _.
  - destruct (put_made_core (put_group h i g1) ds rs) as [(_ & _ & E) Ec]. rewrite E, Ec. auto.
  - destruct (put_made_core (put_doc h i g1) ds rs) as [(_ & _ & E) Ec]. rewrite E, Ec. auto.
Qed.
End keys.
