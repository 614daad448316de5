(** What the calls do to memberships and group keys. *)
From Coq Require Import Arith Lia.
From stdpp Require Import base list gmap relations.
From Verif Require Import ResModel KeysModel TreeModel TreeSpec TreeOps TreeRun OpsModel CgkaModel.
From Verif Require Import AccessModel GroupModel CgkaSpec GroupSpec GroupHistory GroupTransitive GroupPropsProofs PrekeyModel HiveModel HiveSpec SyncModel.
From Verif Require Import DocModel DocSpec DocKeys DocProofs.

Section effects.
Context (order : gset nat -> list nat) (Hord : some_order order) (horder : gset digest -> list digest) (rorder : gset (member_id * nat) -> list (member_id * nat)).
Context (pick : ident -> ident -> share_key) (P : mop -> Prop) (WS : well_signed P).

(** ** The group or document itself *)

(** Group or document [i] got the members of [g]; nothing else changed. *)
Record changed (h : client) (i : ident) (g : group) (h1 : client) : Prop := {
  ch_tidy : tidy order P h1;
  ch_env : h_env h1 = <[i := gr_members g]> (h_env h);
  ch_docs : forall j, is_Some (h_docs h1 !! j) <-> is_Some (h_docs h !! j);
  ch_groups : forall j, is_Some (h_groups h1 !! j) <-> is_Some (h_groups h !! j);
  ch_keys : h_keys h1 = h_keys h;
  ch_cg : h_cg h1 = h_cg h;
  ch_at : has_group h1 i g
}.
Lemma insert_some {A} (m : gmap ident A) i x j : is_Some (m !! i) -> is_Some (<[i := x]> m !! j) <-> is_Some (m !! j).
Proof. intros H. destruct (decide (j = i)) as [->|N]; [rewrite lookup_insert; split; eauto|rewrite lookup_insert_ne by congruence; reflexivity]. Qed.
Lemma change_group h i g0 g ds rs ops : tidy order P h -> h_groups h !! i = Some g0 -> gr_id g = i -> history order ops g -> (forall o, o ∈ ops -> P o) ->
  changed h i g (put_made (put_group h i g) ds rs).
Proof.
  intros T G Ei H Ho. destruct (put_made_core (put_group h i g) ds rs) as [C Cg]. pose proof (core_env _ _ C) as Ee. pose proof C as (E1 & E2 & E3).
  assert (Nd : h_docs h !! i = None). { destruct (h_docs h !! i) eqn:X; [|reflexivity]. exfalso. apply (proj1 (proj2 T) i); eauto. }
  assert (Env : h_env (put_group h i g) = <[i := gr_members g]> (h_env h)).
  { unfold h_env. cbn [put_group h_docs h_groups]. rewrite <- insert_union_r by exact Nd. apply fmap_insert. }
  split.
  - apply (core_tidy order P (put_group h i g)); [exact C|]. split; [|split].
    + intros j gj [X|X]; cbn [put_group h_docs h_groups] in X.
      * destruct (decide (j = i)) as [->|N]; [rewrite lookup_insert in X; injection X as <-; eauto|]. rewrite lookup_insert_ne in X by congruence. apply (proj1 T). left. exact X.
      * apply (proj1 T). right. exact X.
    + cbn [put_group h_docs h_groups]. intros j X Y. apply insert_some in X; [|eauto]. apply (proj1 (proj2 T) j); assumption.
    + rewrite Env. cbn [put_group h_keys]. rewrite lookup_insert_ne; [apply T|]. intros ->. pose proof (proj2 (proj2 T)) as X. unfold h_env in X.
      rewrite lookup_fmap, lookup_union_r, G in X by exact Nd. discriminate.
  - rewrite Ee. exact Env.
  - intros j. rewrite E2. reflexivity.
  - intros j. rewrite E1. apply insert_some. eauto.
  - exact E3.
  - exact Cg.
  - left. rewrite E1. apply lookup_insert.
Qed.
Lemma change_doc h i g0 g ds rs ops : tidy order P h -> h_docs h !! i = Some g0 -> gr_id g = i -> history order ops g -> (forall o, o ∈ ops -> P o) ->
  changed h i g (put_made (put_doc h i g) ds rs).
Proof.
  intros T G Ei H Ho. destruct (put_made_core (put_doc h i g) ds rs) as [C Cg]. pose proof (core_env _ _ C) as Ee. pose proof C as (E1 & E2 & E3).
  assert (Env : h_env (put_doc h i g) = <[i := gr_members g]> (h_env h)).
  { unfold h_env. cbn [put_doc h_docs h_groups]. rewrite <- insert_union_l. apply fmap_insert. }
  split.
  - apply (core_tidy order P (put_doc h i g)); [exact C|]. split; [|split].
    + intros j gj [X|X]; cbn [put_doc h_docs h_groups] in X; [apply (proj1 T); left; exact X|].
      destruct (decide (j = i)) as [->|N]; [rewrite lookup_insert in X; injection X as <-; eauto|]. rewrite lookup_insert_ne in X by congruence. apply (proj1 T). right. exact X.
    + cbn [put_doc h_docs h_groups]. intros j X Y. apply insert_some in Y; [|eauto]. apply (proj1 (proj2 T) j); assumption.
    + rewrite Env. cbn [put_doc h_keys]. rewrite lookup_insert_ne; [apply T|]. intros ->. pose proof (proj2 (proj2 T)) as X. unfold h_env in X.
      rewrite lookup_fmap in X. erewrite lookup_union_Some_l in X by exact G. discriminate.
  - rewrite Ee. exact Env.
  - intros j. rewrite E2. apply insert_some. eauto.
  - intros j. rewrite E1. reflexivity.
  - exact E3.
  - exact Cg.
  - right. rewrite E2. apply lookup_insert.
Qed.
Lemma changed_direct h i g h1 y z : changed h i g h1 -> y <> i -> direct (h_env h) y z <-> direct (h_env h1) y z.
Proof. intros C N. unfold direct. rewrite (ch_env _ _ _ _ C), lookup_insert_ne by congruence. reflexivity. Qed.
Lemma changed_none h i g h1 x : changed h i g h1 -> is_Some (h_env h !! i) -> h_env h1 !! x = None <-> h_env h !! x = None.
Proof. intros C N. rewrite !eq_None_not_Some, (ch_env _ _ _ _ C), insert_some by exact N. reflexivity. Qed.
Lemma changed_key h i g h1 j : changed h i g h1 -> cgka_of h1 j = cgka_of h j.
Proof. intros C. unfold cgka_of. rewrite (ch_cg _ _ _ _ C). reflexivity. Qed.

(** ** Group keys *)

(** The group key of [j] went on with the operations of this client; afterwards [K] has a place. *)
Definition moved (h h' : client) (j : ident) (K : ident -> Prop) : Prop :=
  forall key ops pcs, up_to_date h j key ops pcs ->
    exists ops' pcs', up_to_date h' j key (ops ++ ops') (pcs ++ pcs') /\ forall m, in_key h' j m <-> K m.
Lemma moved_same h h' j (K : ident -> Prop) : cgka_of h' j = cgka_of h j -> (forall m, in_key h j m <-> K m) -> moved h h' j K.
Proof.
  intros E H key ops pcs U. exists [], []. rewrite !app_nil_r. split.
  - destruct U as (c & Ec & X). exists c. split; [congruence|exact X].
  - intros m. rewrite <- H. unfold in_key. rewrite E. reflexivity.
Qed.
Lemma moved_from h0 h h' j K : cgka_of h j = cgka_of h0 j -> moved h h' j K -> moved h0 h' j K.
Proof. intros E M key ops pcs (c & Ec & X). apply M. exists c. split; [congruence|exact X]. Qed.
Lemma moved_to h h1 h' j K : cgka_of h' j = cgka_of h1 j -> moved h h1 j K -> moved h h' j K.
Proof.
  intros E M key ops pcs U. destruct (M key ops pcs U) as (ops' & pcs' & (c & Ec & X) & Q). exists ops', pcs'. split; [exists c; split; [congruence|exact X]|].
  intros m. rewrite <- Q. unfold in_key. rewrite E. reflexivity.
Qed.
Lemma moved_iff h h' j (K K' : ident -> Prop) : (forall m, K m <-> K' m) -> moved h h' j K -> moved h h' j K'.
Proof. intros E M key ops pcs U. destruct (M key ops pcs U) as (ops' & pcs' & A & B). exists ops', pcs'. split; [exact A|]. intros m. rewrite <- E. apply B. Qed.
Lemma in_key_eq h h' j m : cgka_of h' j = cgka_of h j -> in_key h' j m <-> in_key h j m.
Proof. intros E. unfold in_key. rewrite E. reflexivity. Qed.

Lemma doc_add_moved h j l hs h' ops : doc_add_keys horder rorder h j l hs = (h', DOk ops) ->
  core h h' /\ (forall x, x <> j -> cgka_of h' x = cgka_of h x) /\ moved h h' j (fun m => in_key h j m \/ m ∈ map fst l).
Proof.
  unfold doc_add_keys. intros Q. destruct l as [|y l].
  { injection Q as <- <-. split; [apply core_refl|]. split; [reflexivity|]. apply moved_same; [reflexivity|]. intros m. cbn. rewrite elem_of_nil. tauto. }
  destruct (cgka_of h j) as [c|] eqn:E; [|discriminate]. destruct (add_keys horder rorder c (y :: l) hs) as [c' r] eqn:A. injection Q as <- Q.
  destruct r as [o| | |]; try discriminate. split; [apply put_cgka_core|]. split; [intros x N; rewrite cgka_put, decide_False by exact N; reflexivity|].
  intros key ops0 pcs U. apply good_up in U as (c0 & E0 & G). rewrite E in E0. injection E0 as <-.
  destruct (add_keys_good horder rorder j key _ _ _ _ _ _ _ G A) as (l' & _ & G' & M & ->).
  assert (E' : cgka_of (put_cgka h j c') j = Some c') by (rewrite cgka_put, decide_True; reflexivity).
  eexists _, []. rewrite (app_nil_r pcs). split; [apply good_up; exists c'; split; [exact E'|exact G']|].
  intros m. rewrite (in_key_at _ _ _ _ E'), (in_key_at _ _ _ _ E). apply M.
Qed.

Lemma add_to_docs_moved gid who hs docs : NoDup docs -> forall h h' ops, tidy order P h -> is_Some (h_groups h !! gid) ->
  add_to_docs order horder rorder pick h gid who docs hs = (h', DOk ops) ->
  core h h' /\ (forall x, x ∉ docs -> cgka_of h' x = cgka_of h x) /\
  forall j, j ∈ docs -> is_Some (h_docs h !! j) -> moved h h' j (fun m => in_key h j m \/ (belongs (h_env h) j gid /\ stands_for (h_env h) who m)).
Proof.
  induction docs as [|j docs IH]; intros ND h h' ops T Hg Q; cbn [add_to_docs] in Q.
  { injection Q as <- <-. split; [apply core_refl|]. split; [reflexivity|]. intros j X. inversion X. }
  apply NoDup_cons in ND as [Nj ND].
  assert (Skip : forall h1 ops1, core h h1 -> (forall x, x <> j -> cgka_of h1 x = cgka_of h x) ->
     (is_Some (h_docs h !! j) -> moved h h1 j (fun m => in_key h j m \/ (belongs (h_env h) j gid /\ stands_for (h_env h) who m))) ->
     add_to_docs order horder rorder pick h1 gid who docs hs = (h', DOk ops1) ->
     core h h' /\ (forall x, x ∉ j :: docs -> cgka_of h' x = cgka_of h x) /\
     forall j0, j0 ∈ j :: docs -> is_Some (h_docs h !! j0) -> moved h h' j0 (fun m => in_key h j0 m \/ (belongs (h_env h) j0 gid /\ stands_for (h_env h) who m))).
  { intros h1 ops1 C O M E. pose proof (core_env _ _ C) as Ee. pose proof C as (E1 & E2 & _).
    destruct (IH ND h1 h' ops1 (core_tidy order P _ _ C T)) as (C' & O' & M'); [rewrite E1; exact Hg|exact E|].
    split; [eapply core_trans; eauto|]. split.
    - intros x Nx. apply not_elem_of_cons in Nx as [N1 N2]. rewrite O' by exact N2. apply O, N1.
    - intros x Hx Dx. apply elem_of_cons in Hx as [->|Hx].
      + eapply moved_to; [apply O', Nj|]. apply M, Dx.
      + assert (N : x <> j) by (intros ->; contradiction). eapply moved_from; [apply O, N|]. eapply moved_iff; [|apply M'; [exact Hx|rewrite E2; exact Dx]].
        intros m. rewrite Ee, (in_key_eq h h1 x m (O x N)). reflexivity. }
  destruct (h_docs h !! j) as [g|] eqn:Dj.
  2:{ eapply (Skip h); [apply core_refl|reflexivity| |exact Q]. intros [? X]. discriminate. }
  assert (Ng : gid <> j) by (intros ->; apply (proj1 (proj2 T) j); eauto).
  pose proof (reaches_spec order Hord P WS h T j g gid (or_intror Dj) Ng) as RS.
  destruct (reaches order h gid g) eqn:R; cbn [negb] in Q.
  - destruct (pick_spec order Hord pick P WS h T who j) as (l & El & Hl). rewrite El in Q.
    destruct (doc_add_keys horder rorder h j l (hs j)) as [h1 r] eqn:A. destruct r as [o|]; [|discriminate].
    destruct (add_to_docs order horder rorder pick h1 gid who docs hs) as [h2 r2] eqn:A2. destruct r2 as [o2|]; [|discriminate]. injection Q as <- <-.
    destruct (doc_add_moved _ _ _ _ _ _ A) as (C & O & M). eapply (Skip h1); [exact C|exact O| |exact A2]. intros _. eapply moved_iff; [|exact M].
    intros m. cbv beta. rewrite Hl. assert (belongs (h_env h) j gid) by (apply RS; reflexivity). tauto.
  - eapply (Skip h); [apply core_refl|reflexivity| |exact Q]. intros _. apply moved_same; [reflexivity|]. intros m.
    assert (~ belongs (h_env h) j gid) by (intros X; apply RS in X; discriminate). tauto.
Qed.

Lemma remove_moved h j c l hs c' o : j ∉ l -> cgka_of h j = Some c -> remove_keys horder rorder c l hs = (c', Ok o) ->
  moved h (put_cgka h j c') j (fun m => in_key h j m /\ m ∉ l).
Proof.
  intros N E A key ops pcs U. apply good_up in U as (c0 & E0 & G). rewrite E in E0. injection E0 as <-.
  destruct (remove_keys_good horder rorder j key _ N _ _ _ _ _ _ G A) as (l' & _ & G' & M & ->).
  assert (E' : cgka_of (put_cgka h j c') j = Some c') by (rewrite cgka_put, decide_True; reflexivity).
  eexists _, []. rewrite (app_nil_r pcs). split; [apply good_up; exists c'; split; [exact E'|exact G']|].
  intros m. rewrite (in_key_at _ _ _ _ E'), (in_key_at _ _ _ _ E). apply M.
Qed.
Lemma try_remove_moved h j c l hs c' o : j ∉ l -> cgka_of h j = Some c -> try_remove_keys horder rorder c l hs = (c', Ok o) ->
  moved h (put_cgka h j c') j (fun m => in_key h j m /\ m ∉ l).
Proof.
  intros N E A key ops pcs U. pose proof U as U0. apply good_up in U0 as (c0 & E0 & G). rewrite E in E0. injection E0 as <-.
  rewrite (try_remove_keys_good horder rorder j key l N _ _ _ hs G) in A. eapply remove_moved; eauto.
Qed.
Lemma remove_from_docs_moved gid ids hs docs : NoDup docs -> forall h h' ops, tidy order P h -> is_Some (h_groups h !! gid) ->
  (forall m, m ∈ ids -> h_env h !! m = None) ->
  remove_from_docs order horder rorder h gid ids docs hs = (h', DOk ops) ->
  core h h' /\ (forall x, x ∉ docs -> cgka_of h' x = cgka_of h x) /\
  forall j, j ∈ docs -> is_Some (h_docs h !! j) -> moved h h' j (fun m => in_key h j m /\ (belongs (h_env h) j gid -> m ∈ ids -> person_of (h_env h) j m)).
Proof.
  induction docs as [|j docs IH]; intros ND h h' ops T Hg Hi Q; cbn [remove_from_docs] in Q.
  { injection Q as <- <-. split; [apply core_refl|]. split; [reflexivity|]. intros j X. inversion X. }
  apply NoDup_cons in ND as [Nj ND].
  assert (Skip : forall h1 ops1, core h h1 -> (forall x, x <> j -> cgka_of h1 x = cgka_of h x) ->
     (is_Some (h_docs h !! j) -> moved h h1 j (fun m => in_key h j m /\ (belongs (h_env h) j gid -> m ∈ ids -> person_of (h_env h) j m))) ->
     remove_from_docs order horder rorder h1 gid ids docs hs = (h', DOk ops1) ->
     core h h' /\ (forall x, x ∉ j :: docs -> cgka_of h' x = cgka_of h x) /\
     forall j0, j0 ∈ j :: docs -> is_Some (h_docs h !! j0) -> moved h h' j0 (fun m => in_key h j0 m /\ (belongs (h_env h) j0 gid -> m ∈ ids -> person_of (h_env h) j0 m))).
  { intros h1 ops1 C O M E. pose proof (core_env _ _ C) as Ee. pose proof C as (E1 & E2 & _).
    destruct (IH ND h1 h' ops1 (core_tidy order P _ _ C T)) as (C' & O' & M'); [rewrite E1; exact Hg|rewrite Ee; exact Hi|exact E|].
    split; [eapply core_trans; eauto|]. split.
    - intros x Nx. apply not_elem_of_cons in Nx as [N1 N2]. rewrite O' by exact N2. apply O, N1.
    - intros x Hx Dx. apply elem_of_cons in Hx as [->|Hx].
      + eapply moved_to; [apply O', Nj|]. apply M, Dx.
      + assert (N : x <> j) by (intros ->; contradiction). eapply moved_from; [apply O, N|]. eapply moved_iff; [|apply M'; [exact Hx|rewrite E2; exact Dx]].
        intros m. rewrite Ee, (in_key_eq h h1 x m (O x N)). reflexivity. }
  destruct (h_docs h !! j) as [g|] eqn:Dj.
  2:{ eapply (Skip h); [apply core_refl|reflexivity| |exact Q]. intros [? X]. discriminate. }
  assert (Ng : gid <> j) by (intros ->; apply (proj1 (proj2 T) j); eauto).
  assert (Ej : is_Some (h_env h !! j)) by (eexists; apply (env_group order P h T); exists g; split; [right; exact Dj|reflexivity]).
  destruct (caps_spec order Hord P WS h T j g (or_intror Dj)) as (caps & Ec & K). rewrite Ec in Q.
  destruct (bool_decide (is_Some (caps !! gid))) eqn:B.
  - apply bool_decide_eq_true in B. apply K in B; [|exact Ng].
    set (gone := order (filter (fun i => ~ (is_Some (caps !! i) /\ h_env h !! i = None)) ids)) in *.
    assert (Hgone : forall m, m ∈ gone <-> m ∈ ids /\ ~ person_of (h_env h) j m).
    { intros m. unfold gone. rewrite (Hord _), elem_of_elements, elem_of_filter. unfold person_of. split.
      - intros [X Y]. split; [exact Y|]. intros [Z1 Z2]. apply X. split; [|exact Z2]. apply K; [|exact Z1]. intros ->. destruct Ej. congruence.
      - intros [Y X]. split; [|exact Y]. intros [Z1 Z2]. apply X. split; [|exact Z2]. apply K; [|exact Z1]. intros ->. destruct Ej. congruence. }
    assert (Njg : j ∉ gone). { intros X. apply Hgone in X as [X _]. apply Hi in X. destruct Ej. congruence. }
    assert (Eq : forall m, (in_key h j m /\ m ∉ gone) <-> (in_key h j m /\ (belongs (h_env h) j gid -> m ∈ ids -> person_of (h_env h) j m))).
    { intros m. rewrite Hgone. split; intros [X Y]; (split; [exact X|]).
      - intros _ Z. destruct (decide (is_Some (caps !! m))) as [W|W].
        + split; [apply K; [|exact W]|apply Hi, Z]. intros ->. apply Hi in Z. destruct Ej. congruence.
        + exfalso. apply Y. split; [exact Z|]. intros [V _]. apply W, K; [|exact V]. intros ->. apply Hi in Z. destruct Ej. congruence.
      - intros [Z1 Z2]. apply Z2, Y; assumption. }
    destruct (cgka_of h j) as [c|] eqn:Ecg.
    + destruct (try_remove_keys horder rorder c gone (hs j)) as [c' r] eqn:A. destruct r as [o| | |]; try (cbn [of_res] in Q; discriminate).
      destruct (remove_from_docs order horder rorder (put_cgka h j c') gid ids docs hs) as [h2 r2] eqn:A2. destruct r2 as [o2|]; [|discriminate]. injection Q as <- <-.
      eapply (Skip (put_cgka h j c')); [apply put_cgka_core|intros x N; rewrite cgka_put, decide_False by exact N; reflexivity| |exact A2].
      intros _. eapply moved_iff; [exact Eq|]. eapply try_remove_moved; eauto.
    + eapply (Skip h); [apply core_refl|reflexivity| |exact Q]. intros _ key ops0 pcs (c & X & _). congruence.
  - apply bool_decide_eq_false in B. eapply (Skip h); [apply core_refl|reflexivity| |exact Q]. intros _. apply moved_same; [reflexivity|]. intros m.
    assert (~ belongs (h_env h) j gid) by (intros X; apply B, K; assumption). tauto.
Qed.

(** ** Calls *)

(** Those whose group key is changed by changing the members of [i]. *)
Definition concerns (h : client) (e : env) (i j : ident) : Prop := j = i \/ (is_Some (h_groups h !! i) /\ belongs e j i).

Lemma order_docs (h : client) : NoDup (order (dom (h_docs h))) /\ forall j, j ∈ order (dom (h_docs h)) <-> is_Some (h_docs h !! j).
Proof. split; [rewrite (Hord _); apply NoDup_elements|]. intros j. rewrite (Hord _), elem_of_elements, elem_of_dom. reflexivity. Qed.
Lemma env_at h i g : tidy order P h -> has_group h i g -> is_Some (h_env h !! i).
Proof. intros T G. eexists. apply (env_group order P h T). eauto. Qed.
Lemma core_moved h1 h' : core h1 h' -> h_env h' = h_env h1 /\ h_docs h' = h_docs h1 /\ h_groups h' = h_groups h1.
Proof. intros C. split; [apply core_env, C|]. destruct C as (?&?&?). auto. Qed.

Lemma add_effect h i who can content s hs h' d ops : tidy order P h ->
  hive_add_member order horder rorder pick h i who can content s hs = (h', DOk (d, ops)) -> P (MD d) ->
  exists h1 g, changed h i g h1 /\ core h1 h' /\ is_Some (h_env h !! i) /\
    (forall x, ~ belongs (h_env h) x x) /\ (forall x, ~ belongs (h_env h') x x) /\
    d_delegate d = who /\ d_can d = can /\ d_issuer d = me h /\
    forall j, is_Some (h_docs h !! j) ->
      moved h h' j (fun m => in_key h j m \/ (is_reader can = true /\ concerns h (h_env h') i j /\ stands_for (h_env h') who m)).
Proof.
  intros T Q Pd. unfold hive_add_member in Q. destruct (any_loop order h) eqn:L; [discriminate|]. pose proof (no_loops order Hord P WS h T L) as Acy.
  destruct (h_groups h !! i) as [g|] eqn:G.
  - destruct (add_member order (h_env h) g who can (me h) content s) as [[g1 d1]|] eqn:A; [|discriminate]. cbv zeta in Q.
    set (h1 := put_made (put_group h i g1) [d1] []) in *. destruct (delegation_hangs _ _ _ _); [discriminate|]. cbn [orb] in Q. destruct (any_loop order h1) eqn:L1; [discriminate|].
    destruct (proj1 T i g (or_introl G)) as (Ei & ops0 & H0 & P0). pose proof (history_sound order P WS ops0 g H0 P0) as S0.
    destruct (add_member_history order Hord (h_env h) ops0 g who can (me h) content s g1 d1 H0 S0 A) as (H1 & _ & I1 & D1 & C1 & _).
    assert (d1 = d) as ->. { destruct (is_reader can); [|congruence]. destruct (add_to_docs _ _ _ _ _ _ _ _ _) as [? []]; congruence. }
    assert (P1 : forall o, o ∈ MD d :: ops0 -> P o). { intros o Ho. apply elem_of_cons in Ho as [->|Ho]; auto. }
    assert (Ch : changed h i g1 h1).
    { eapply change_group; eauto. rewrite <- Ei. apply (add_member_subject _ _ _ _ _ _ _ _ _ _ A). }
    pose proof (no_loops order Hord P WS h1 (ch_tidy _ _ _ _ Ch) L1) as Acy1. destruct (order_docs h1) as [ND OD].
    assert (Nd : forall j, is_Some (h_docs h !! j) -> j <> i) by (intros j X ->; apply (proj1 (proj2 T) i); eauto).
    destruct (is_reader can) eqn:Rd.
    + destruct (add_to_docs order horder rorder pick h1 i who (order (dom (h_docs h1))) hs) as [h2 r] eqn:AD. destruct r as [o|]; [|discriminate]. injection Q as <- <-.
      destruct (add_to_docs_moved i who hs _ ND h1 h2 o (ch_tidy _ _ _ _ Ch)) as (C & O & M); [apply (ch_groups _ _ _ _ Ch); eauto|exact AD|].
      pose proof (core_env _ _ C) as Ee. exists h1, g1. rewrite Ee.
      split; [exact Ch|]. split; [exact C|]. split; [eapply env_at; [exact T|left; exact G]|]. split; [exact Acy|]. split; [exact Acy1|]. do 3 (split; [assumption|]).
      intros j Hj. eapply moved_from; [apply (changed_key _ _ _ _ _ Ch)|]. apply (ch_docs _ _ _ _ Ch) in Hj as Hj1. eapply moved_iff; [|apply M; [apply OD, Hj1|exact Hj1]].
      intros m. cbv beta. rewrite (in_key_eq h h1 j m (changed_key _ _ _ _ _ Ch)). unfold concerns. pose proof (Nd j Hj). rewrite G. assert (is_Some (Some g)) by eauto. tauto.
    + injection Q as <- <-. exists h1, g1. split; [exact Ch|]. split; [apply core_refl|]. split; [eapply env_at; [exact T|left; exact G]|]. split; [exact Acy|]. split; [exact Acy1|].
      do 3 (split; [assumption|]). intros j Hj. apply moved_same; [apply (changed_key _ _ _ _ _ Ch)|]. intros m. split; [auto|]. intros [X|[X _]]; [exact X|discriminate].
  - destruct (h_docs h !! i) as [g|] eqn:D; [|discriminate].
    destruct (add_member order (h_env h) g who can (me h) content s) as [[g1 d1]|] eqn:A; [|discriminate]. cbv zeta in Q.
    set (h1 := put_made (put_doc h i g1) [d1] []) in *. destruct (delegation_hangs _ _ _ _); [discriminate|]. cbn [orb] in Q. destruct (any_loop order h1) eqn:L1; [discriminate|].
    destruct (proj1 T i g (or_intror D)) as (Ei & ops0 & H0 & P0). pose proof (history_sound order P WS ops0 g H0 P0) as S0.
    destruct (add_member_history order Hord (h_env h) ops0 g who can (me h) content s g1 d1 H0 S0 A) as (H1 & _ & I1 & D1 & C1 & _).
    assert (d1 = d) as ->. { destruct (is_reader can); [|congruence]. destruct (pick_prekeys _ _ _ _ _); [|congruence]. destruct (doc_add_keys _ _ _ _ _ _) as [? []]; congruence. }
    assert (P1 : forall o, o ∈ MD d :: ops0 -> P o). { intros o Ho. apply elem_of_cons in Ho as [->|Ho]; auto. }
    assert (Ch : changed h i g1 h1).
    { eapply change_doc; eauto. rewrite <- Ei. apply (add_member_subject _ _ _ _ _ _ _ _ _ _ A). }
    pose proof (no_loops order Hord P WS h1 (ch_tidy _ _ _ _ Ch) L1) as Acy1.
    destruct (is_reader can) eqn:Rd.
    + destruct (pick_spec order Hord pick P WS h1 (ch_tidy _ _ _ _ Ch) who i) as (l & El & Hl). rewrite El in Q.
      destruct (doc_add_keys horder rorder h1 i l (hs i)) as [h2 r] eqn:AD. destruct r as [o|]; [|discriminate]. injection Q as <- <-.
      destruct (doc_add_moved _ _ _ _ _ _ AD) as (C & O & M). pose proof (core_env _ _ C) as Ee. exists h1, g1. rewrite Ee.
      split; [exact Ch|]. split; [exact C|]. split; [eapply env_at; [exact T|right; exact D]|]. split; [exact Acy|]. split; [exact Acy1|]. do 3 (split; [assumption|]).
      intros j Hj. unfold concerns. rewrite G. destruct (decide (j = i)) as [->|N].
      * eapply moved_from; [apply (changed_key _ _ _ _ _ Ch)|]. eapply moved_iff; [|exact M]. intros m. cbv beta. rewrite Hl, (in_key_eq h h1 i m (changed_key _ _ _ _ _ Ch)). tauto.
      * apply moved_same; [rewrite O by exact N; apply (changed_key _ _ _ _ _ Ch)|]. intros m. split; [auto|]. intros [X|(_ & [X|[[? X] _]] & _)]; [exact X|contradiction|discriminate].
    + injection Q as <- <-. exists h1, g1. split; [exact Ch|]. split; [apply core_refl|]. split; [eapply env_at; [exact T|right; exact D]|]. split; [exact Acy|]. split; [exact Acy1|].
      do 3 (split; [assumption|]). intros j Hj. apply moved_same; [apply (changed_key _ _ _ _ _ Ch)|]. intros m. split; [auto|]. intros [X|[X _]]; [exact X|discriminate].
Qed.

Lemma revoke_history h i g target retain content sigs g1 rs ds : tidy order P h -> has_group h i g ->
  revoke_member order (h_env h) g target retain (me h) content sigs = GOk (g1, rs, ds) -> (forall r, r ∈ rs -> P (MR r)) -> (forall d, d ∈ ds -> P (MD d)) ->
  gr_id g1 = i /\ exists ops, history order ops g1 /\ forall o, o ∈ ops -> P o.
Proof.
  intros T G A Pr Pd. destruct (proj1 T i g G) as (Ei & ops0 & H0 & P0). pose proof (history_sound order P WS ops0 g H0 P0) as S0.
  destruct (gr_members g !! target) as [l|] eqn:L.
  - set (ops' := reverse (map MD ds) ++ after_revs rs ops0).
    assert (P1 : forall o, o ∈ ops' -> P o).
    { intros o Ho. apply elem_of_app in Ho as [Ho|Ho]; [rewrite elem_of_reverse in Ho; apply elem_of_list_fmap in Ho as (d & -> & Hd); auto|].
      apply after_revs_in in Ho as [(r & Hr & ->)|Ho]; auto. }
    destruct (revoke_member_subject _ _ _ _ _ _ _ _ _ _ _ A) as (Ei' & Sr & Sd).
    assert (S1 : sound ops').
    { apply (from_sound P WS ops' (gr_id g) P1). intros o Ho. apply elem_of_app in Ho as [Ho|Ho]; [rewrite elem_of_reverse in Ho; apply elem_of_list_fmap in Ho as (d & -> & Hd); apply Sd, Hd|].
      apply after_revs_in in Ho as [(r & Hr & ->)|Ho]; [apply Sr, Hr|apply (history_subject order _ _ H0), Ho]. }
    destruct (revoke_member_history order Hord (h_env h) ops0 g target retain (me h) content sigs g1 rs ds H0) as (H1 & _); [congruence|exact A|exact S1|].
    split; [congruence|exists ops'; auto].
  - unfold revoke_member in A. rewrite L in A. cbn [default id] in A. injection A as <- <- <-. cbn [gr_id]. split; [exact Ei|].
    exists ops0. split; [|exact P0]. rewrite delete_notin by exact L. destruct g; exact H0.
Qed.

Lemma revoke_effect h i target retain content sigs hs h' rs ds ops : tidy order P h ->
  hive_revoke_member order horder rorder h i target retain content sigs hs = (h', DOk (rs, ds, ops)) ->
  (forall r, r ∈ rs -> P (MR r)) -> (forall d, d ∈ ds -> P (MD d)) ->
  exists h1 g, changed h i g h1 /\ core h1 h' /\ is_Some (h_env h !! i) /\ (forall x, ~ belongs (h_env h) x x) /\
    forall j, is_Some (h_docs h !! j) ->
      moved h h' j (fun m => in_key h j m /\ (concerns h (h_env h') i j -> direct (h_env h) i target -> stands_for (h_env h) target m -> person_of (h_env h') j m)).
Proof.
  intros T Q Pr Pd. unfold hive_revoke_member in Q. destruct (any_loop order h) eqn:L; [discriminate|]. pose proof (no_loops order Hord P WS h T L) as Acy.
  assert (Beh : forall g, has_group h i g -> exists ids, behind order h (default [] (gr_members g !! target)) = Some ids /\
    forall m, m ∈ ids <-> direct (h_env h) i target /\ stands_for (h_env h) target m).
  { intros g G. destruct (behind_spec order Hord P WS h T (default [] (gr_members g !! target))) as (ids & Ei & Hi). exists ids. split; [exact Ei|].
    assert (Eg : h_env h !! i = Some (gr_members g)) by (apply (env_group order P h T); eauto).
    intros m. rewrite Hi. destruct (gr_members g !! target) as [l|] eqn:Lt; cbn [default].
    - destruct (proj1 (env_sane order Hord P WS h T) _ _ _ _ Eg Lt) as [Nl Dl]. split.
      + intros (d & Hd & X). rewrite (Dl d Hd) in X. split; [exists (gr_members g); split; [exact Eg|eauto]|exact X].
      + intros [_ X]. destruct l as [|d l]; [contradiction|]. exists d. split; [left|]. rewrite (Dl d) by left. exact X.
    - split; [intros (d & Hd & _); inversion Hd|]. intros [(mems & X & Y) _]. rewrite Eg in X. injection X as <-. rewrite Lt in Y. destruct Y. discriminate. }
  destruct (h_groups h !! i) as [g|] eqn:G.
  - destruct (Beh g (or_introl G)) as (ids & Eids & Hids). rewrite Eids in Q.
    destruct (revoke_member order (h_env h) g target retain (me h) content sigs) as [[[g1 rs1] ds1]|] eqn:A; [|discriminate]. destruct (revoking_hangs order (h_env h) g1 rs1 ds1); [discriminate|]. cbv zeta in Q.
    set (h1 := put_made (put_group h i g1) ds1 rs1) in *.
    assert (rs1 = rs /\ ds1 = ds) as [-> ->].
    { destruct (bool_decide (ids = ∅)); [injection Q; auto|]. destruct (remove_from_docs _ _ _ _ _ _ _ _) as [? []]; [injection Q; auto|discriminate]. }
    destruct (revoke_history h i g target retain content sigs g1 rs ds T (or_introl G) A Pr Pd) as (Ei & ops1 & H1 & P1).
    assert (Ch : changed h i g1 h1) by (eapply change_group; eauto).
    assert (Env : is_Some (h_env h !! i)) by (eapply env_at; [exact T|left; exact G]).
    assert (Nd : forall j, is_Some (h_docs h !! j) -> j <> i) by (intros j X ->; apply (proj1 (proj2 T) i); eauto).
    destruct (bool_decide (ids = ∅)) eqn:B.
    + injection Q as <- <-. apply bool_decide_eq_true in B. exists h1, g1. split; [exact Ch|]. split; [apply core_refl|]. split; [exact Env|]. split; [exact Acy|].
      intros j Hj. apply moved_same; [apply (changed_key _ _ _ _ _ Ch)|]. intros m. split; [|tauto]. intros X. split; [exact X|]. intros _ Y Z. exfalso.
      assert (W : m ∈ ids) by (apply Hids; auto). rewrite B in W. apply not_elem_of_empty in W. exact W.
    + destruct (order_docs h1) as [ND OD]. destruct (remove_from_docs order horder rorder h1 i ids (order (dom (h_docs h1))) hs) as [h2 r] eqn:AD. destruct r as [o|]; [|discriminate]. injection Q as <- <-.
      destruct (remove_from_docs_moved i ids hs _ ND h1 h2 o (ch_tidy _ _ _ _ Ch)) as (C & O & M); [apply (ch_groups _ _ _ _ Ch); eauto| |exact AD|].
      { intros m Hm. apply Hids in Hm as (_ & _ & Hm). apply (changed_none _ _ _ _ _ Ch Env), Hm. }
      pose proof (core_env _ _ C) as Ee. exists h1, g1. rewrite Ee. split; [exact Ch|]. split; [exact C|]. split; [exact Env|]. split; [exact Acy|].
      intros j Hj. eapply moved_from; [apply (changed_key _ _ _ _ _ Ch)|]. apply (ch_docs _ _ _ _ Ch) in Hj as Hj1. eapply moved_iff; [|apply M; [apply OD, Hj1|exact Hj1]].
      intros m. cbv beta. rewrite (in_key_eq h h1 j m (changed_key _ _ _ _ _ Ch)), Hids. unfold concerns. pose proof (Nd j Hj). rewrite G. assert (is_Some (Some g)) by eauto. tauto.
  - destruct (h_docs h !! i) as [g|] eqn:D; [|discriminate]. destruct (Beh g (or_intror D)) as (ids & Eids & Hids). rewrite Eids in Q.
    destruct (revoke_member order (h_env h) g target retain (me h) content sigs) as [[[g1 rs1] ds1]|] eqn:A; [|discriminate]. destruct (revoking_hangs order (h_env h) g1 rs1 ds1); [discriminate|]. cbv zeta in Q.
    set (h1 := put_made (put_doc h i g1) ds1 rs1) in *.
    assert (rs1 = rs /\ ds1 = ds) as [-> ->].
    { destruct (group_individual_ids _ _ _); [|discriminate]. destruct (order _); [injection Q; auto|]. destruct (cgka_of h1 i); [|discriminate].
      destruct (remove_keys _ _ _ _ _) as [? []]; try discriminate. injection Q; auto. }
    destruct (revoke_history h i g target retain content sigs g1 rs ds T (or_intror D) A Pr Pd) as (Ei & ops1 & H1 & P1).
    assert (Ch : changed h i g1 h1) by (eapply change_doc; eauto).
    assert (Env : is_Some (h_env h !! i)) by (eapply env_at; [exact T|right; exact D]).
    assert (E1 : h_env h1 !! i = Some (gr_members g1)) by (rewrite (ch_env _ _ _ _ Ch); apply lookup_insert).
    destruct (group_individual_ids_spec order (h_env h1) i (gr_members g1) Hord (env_sane order Hord P WS h1 (ch_tidy _ _ _ _ Ch)) E1) as (still & Es & Hs). rewrite Es in Q.
    assert (Hgone : forall m, m ∈ order (ids ∖ still) <-> (direct (h_env h) i target /\ stands_for (h_env h) target m) /\ ~ person_of (h_env h1) i m).
    { intros m. rewrite (Hord _), elem_of_elements, elem_of_difference, Hids, Hs. reflexivity. }
    assert (Eq : forall m, (in_key h i m /\ m ∉ order (ids ∖ still)) <->
      (in_key h i m /\ (concerns h (h_env h1) i i -> direct (h_env h) i target -> stands_for (h_env h) target m -> person_of (h_env h1) i m))).
    { intros m. rewrite Hgone. assert (concerns h (h_env h1) i i) by (left; reflexivity). split; intros [X Y]; (split; [exact X|]); [|tauto].
      intros _ Z1 Z2. destruct (decide (m ∈ still)) as [W|W]; [apply Hs, W|]. exfalso. apply Y. split; [auto|]. intros V. apply W, Hs, V. }
    assert (Other : forall h2, core h1 h2 -> (forall x, x <> i -> cgka_of h2 x = cgka_of h1 x) ->
      moved h h2 i (fun m => in_key h i m /\ m ∉ order (ids ∖ still)) -> exists h1 g, changed h i g h1 /\ core h1 h2 /\ is_Some (h_env h !! i) /\ (forall x, ~ belongs (h_env h) x x) /\
      forall j, is_Some (h_docs h !! j) ->
      moved h h2 j (fun m => in_key h j m /\ (concerns h (h_env h2) i j -> direct (h_env h) i target -> stands_for (h_env h) target m -> person_of (h_env h2) j m))).
    { intros h2 C O M. pose proof (core_env _ _ C) as Ee. exists h1, g1. rewrite Ee. split; [exact Ch|]. split; [exact C|]. split; [exact Env|]. split; [exact Acy|].
      intros j Hj. destruct (decide (j = i)) as [->|N]; [eapply moved_iff; [exact Eq|exact M]|].
      apply moved_same; [rewrite O by exact N; apply (changed_key _ _ _ _ _ Ch)|]. intros m. split; [|tauto]. intros X. split; [exact X|].
      intros [Y|[[? Y] _]]; [contradiction|congruence]. }
    destruct (order (ids ∖ still)) as [|x gone] eqn:Eg.
    + injection Q as <- <-. apply (Other h1); [apply core_refl|reflexivity|]. apply moved_same; [apply (changed_key _ _ _ _ _ Ch)|]. intros m. rewrite elem_of_nil. tauto.
    + destruct (cgka_of h1 i) as [c|] eqn:Ec; [|discriminate].
      destruct (remove_keys horder rorder c (x :: gone) (hs i)) as [c' r] eqn:AD. destruct r as [o| | |]; try (cbn [of_res] in Q; discriminate). injection Q as <- <-.
      apply (Other (put_cgka h1 i c')); [apply put_cgka_core|intros y N; rewrite cgka_put, decide_False by exact N; reflexivity|].
      eapply moved_from; [apply (changed_key _ _ _ _ _ Ch)|]. eapply moved_iff; [|eapply remove_moved; [|exact Ec|exact AD]].
      * intros m. cbv beta. rewrite (in_key_eq h h1 i m (changed_key _ _ _ _ _ Ch)). reflexivity.
      * intros X. apply Hgone in X as [[_ [_ X]] _]. destruct Env. congruence.
Qed.

(** ** New groups and documents *)
Lemma generate_history i parents content g : parents <> [] -> NoDup parents.*2 -> (forall x, x ∈ parents -> P (MD (Dlg x.2 i x.1 Admin None [] content))) ->
  generate_group order i parents content = Some g -> gr_id g = i /\ exists ops, history order ops g /\ forall o, o ∈ ops -> P o.
Proof.
  intros N ND Pp E. split; [apply (rebuild_keeps _ _ _ E)|]. eexists. split; [eapply h_generate; eauto|]. intros o Ho. apply elem_of_list_fmap in Ho as (x & -> & Hx). auto.
Qed.
(** A new group or document [i] with the members of [g]. *)
Record made (h : client) (i : ident) (g : group) (h1 : client) : Prop := {
  mk_tidy : tidy order P h1;
  mk_env : h_env h1 = <[i := gr_members g]> (h_env h);
  mk_cg : h_cg h1 = h_cg h;
  mk_keys : ks_public (h_keys h1) = ks_public (h_keys h)
}.
Lemma make_group h i g ds ops : tidy order P h -> unused h i -> gr_id g = i -> history order ops g -> (forall o, o ∈ ops -> P o) ->
  made h i g (put_made (new_plain_group h i g) ds []) /\ h_docs (put_made (new_plain_group h i g) ds []) = h_docs h.
Proof.
  intros T (U & _ & Np & _) Ei H Ho. destruct (put_made_core (new_plain_group h i g) ds []) as [C Cg]. pose proof (core_env _ _ C) as Ee. pose proof C as (E1 & E2 & E3).
  apply env_none in U as [Ug Ud].
  assert (Env : h_env (new_plain_group h i g) = <[i := gr_members g]> (h_env h)).
  { unfold h_env. cbn [new_plain_group put_group put_keys h_docs h_groups]. rewrite <- insert_union_r by exact Ud. apply fmap_insert. }
  split; [split|exact E2].
  - apply (core_tidy order P (new_plain_group h i g)); [exact C|]. split; [|split].
    + intros j gj [X|X]; cbn [new_plain_group put_group put_keys h_docs h_groups] in X.
      * destruct (decide (j = i)) as [->|N]; [rewrite lookup_insert in X; injection X as <-; eauto|]. rewrite lookup_insert_ne in X by congruence. apply (proj1 T). left. exact X.
      * apply (proj1 T). right. exact X.
    + cbn [new_plain_group put_group put_keys h_docs h_groups]. intros j X Y. destruct (decide (j = i)) as [->|N]; [rewrite Ud in Y; destruct Y; discriminate|].
      rewrite lookup_insert_ne in X by congruence. apply (proj1 (proj2 T) j); assumption.
    + rewrite Env. cbn [new_plain_group put_group put_keys h_keys ks_public]. rewrite lookup_insert_ne by exact Np. apply T.
  - rewrite Ee. exact Env.
  - exact Cg.
  - rewrite E3. reflexivity.
Qed.
Lemma make_doc h i g ds ops : tidy order P h -> unused h i -> gr_id g = i -> history order ops g -> (forall o, o ∈ ops -> P o) ->
  made h i g (put_made (new_document h i g) ds []) /\ h_docs (put_made (new_document h i g) ds []) = <[i := g]> (h_docs h).
Proof.
  intros T (U & _ & Np & _) Ei H Ho. destruct (put_made_core (new_document h i g) ds []) as [C Cg]. pose proof (core_env _ _ C) as Ee. pose proof C as (E1 & E2 & E3).
  apply env_none in U as [Ug Ud].
  assert (Env : h_env (new_document h i g) = <[i := gr_members g]> (h_env h)).
  { unfold h_env. cbn [new_document put_doc put_keys h_docs h_groups]. rewrite <- insert_union_l. apply fmap_insert. }
  split; [split|exact E2].
  - apply (core_tidy order P (new_document h i g)); [exact C|]. split; [|split].
    + intros j gj [X|X]; cbn [new_document put_doc put_keys h_docs h_groups] in X; [apply (proj1 T); left; exact X|].
      destruct (decide (j = i)) as [->|N]; [rewrite lookup_insert in X; injection X as <-; eauto|]. rewrite lookup_insert_ne in X by congruence. apply (proj1 T). right. exact X.
    + cbn [new_document put_doc put_keys h_docs h_groups]. intros j X Y. destruct (decide (j = i)) as [->|N]; [rewrite Ug in X; destruct X; discriminate|].
      rewrite lookup_insert_ne in Y by congruence. apply (proj1 (proj2 T) j); assumption.
    + rewrite Env. cbn [new_document put_doc put_keys h_keys ks_public]. rewrite lookup_insert_ne by exact Np. apply T.
  - rewrite Ee. exact Env.
  - exact Cg.
  - rewrite E3. reflexivity.
Qed.
Lemma generate_group_effect h i parents content h' : tidy order P h -> unused h i -> parents <> [] -> NoDup parents.*2 ->
  (forall x, x ∈ parents -> P (MD (Dlg x.2 i x.1 Admin None [] content))) -> hive_generate_group order h i parents content = (h', DOk tt) ->
  exists g, made h i g h' /\ h_docs h' = h_docs h.
Proof.
  intros T U N ND Pp Q. unfold hive_generate_group in Q. destruct (generate_group order i parents content) as [g|] eqn:E; [|discriminate]. injection Q as <-.
  destruct (generate_history i parents content g N ND Pp E) as (Ei & ops & H & Ho). exists g. eapply make_group; eauto.
Qed.
Lemma generate_doc_effect h i parents content sk h0 hs hu rng h' ops : tidy order P h -> unused h i -> parents <> [] -> NoDup parents.*2 ->
  (forall x, x ∈ parents -> P (MD (Dlg x.2 i x.1 Admin None [] content))) ->
  hive_generate_doc order horder rorder pick h i parents content sk h0 hs hu rng = (h', DOk ops) ->
  exists g h1, made h i g h1 /\ core h1 h' /\ h_docs h' = <[i := g]> (h_docs h) /\ (forall j, j <> i -> cgka_of h' j = cgka_of h j) /\
    (exists l pc, (forall m, m ∈ map fst l <-> person_of (h_env h') i m) /\
       up_to_date h' i (pub sk) (map (fun x => OAdd x.1 x.2) l ++ [OUpdate i sk rng]) [pc]) /\
    (forall m, in_key h' i m <-> m = i \/ person_of (h_env h') i m).
Proof.
  intros T U N ND Pp Q. unfold hive_generate_doc in Q. destruct (generate_group order i parents content) as [g|] eqn:E; [|discriminate].
  destruct (generate_history i parents content g N ND Pp E) as (Ei & os & H & Ho).
  destruct (make_doc h i g (map snd (map_to_list (gr_dheads g))) os T U Ei H Ho) as [M MD]. set (h1 := put_made (new_document h i g) (map snd (map_to_list (gr_dheads g))) []) in *.
  pose proof (env_sane order Hord P WS h1 (mk_tidy _ _ _ _ M)) as S. rewrite (mk_env _ _ _ _ M) in S.
  assert (Ep : <[i := gr_members g]> (h_env h) !! ks_public (h_keys h) = None).
  { rewrite <- (mk_env _ _ _ _ M), <- (mk_keys _ _ _ _ M). apply (mk_tidy _ _ _ _ M). }
  destruct (prekey_individuals_spec order _ i (ks_public (h_keys h)) (gr_members g) Hord S (lookup_insert _ _ _) Ep) as (s & Es & Hs). rewrite Es in Q. cbv zeta in Q.
  set (l := map (fun x => (x, pick x i)) (filter (fun x => x <> i) (order s))) in *.
  assert (Hl : forall m, m ∈ map fst l <-> person_of (h_env h1) i m).
  { intros m. unfold l. rewrite map_map. cbn [fst]. rewrite map_id, elem_of_list_filter, (Hord s), elem_of_elements, Hs, (mk_env _ _ _ _ M). unfold person_of.
    split; [tauto|]. intros X. split; [|exact X]. intros ->. destruct X as [_ X]. rewrite lookup_insert in X. discriminate. }
  destruct (cgka_from_init i (pub sk) (SignedOp h0 (init_add i (pub sk)))) as [c0| | |] eqn:Ec; try discriminate.
  set (c1 := with_new_owner c0 i {[ pub sk := sk ]}) in *.
  pose proof (new_good i (pub sk) (pub sk) h0 {[ pub sk := sk ]} c0 Ec eq_refl) as G1. fold c1 in G1.
  destruct (add_keys horder rorder c1 l hs) as [c2 r2] eqn:A. destruct r2 as [o2| | |]; try discriminate.
  destruct (add_keys_good horder rorder i (pub sk) _ _ _ _ _ _ _ G1 A) as (l' & _ & G2 & M2 & ->).
  destruct (cgka_update horder rorder c2 sk hu rng) as [c3 r3] eqn:B. destruct r3 as [[[k op] x]| | |]; try discriminate. injection Q as <- _.
  destruct (update_good horder rorder i (pub sk) _ _ _ _ _ _ _ _ G2 B) as (ops' & pcs' & G3 & M3 & -> & pc & ->).
  assert (C : core h1 (put_cgka h1 i c3)) by apply put_cgka_core.
  assert (Ei3 : cgka_of (put_cgka h1 i c3) i = Some c3) by (rewrite cgka_put, decide_True; reflexivity).
  exists g, h1. rewrite (core_env _ _ C). split; [exact M|]. split; [exact C|]. split; [exact MD|]. split; [|split].
  - intros j Nj. rewrite cgka_put, decide_False by exact Nj. unfold cgka_of. rewrite (mk_cg _ _ _ _ M). reflexivity.
  - exists l, pc. split; [exact Hl|]. apply good_up. exists c3. split; [exact Ei3|exact G3].
  - intros m. rewrite (in_key_at _ _ _ _ Ei3), M3, M2, Hl. unfold c1. rewrite (new_only i (pub sk) h0 {[ pub sk := sk ]} c0 m Ec). reflexivity.
Qed.
Lemma made_below h i g h1 j m : made h i g h1 -> unused h i -> j <> i -> belongs (h_env h1) j m <-> belongs (h_env h) j m.
Proof.
  intros M (_ & U & _) N. symmetry. apply (away_tc _ _ i).
  - intros y z Ny. unfold direct. rewrite (mk_env _ _ _ _ M), lookup_insert_ne by congruence. reflexivity.
  - intros X. apply rtc_inv_r in X as [X|(y & _ & X)]; [contradiction|]. eapply U; eauto.
Qed.
Lemma made_person h i g h1 j m : made h i g h1 -> unused h i -> j <> i -> person_of (h_env h1) j m <-> person_of (h_env h) j m.
Proof.
  intros M U N. unfold person_of. rewrite (made_below _ _ _ _ _ _ M U N). split; intros [X Y]; (split; [exact X|]).
  - rewrite (mk_env _ _ _ _ M) in Y. apply lookup_insert_None in Y. apply Y.
  - rewrite (mk_env _ _ _ _ M), lookup_insert_ne; [exact Y|]. intros <-.
    destruct U as (_ & U & _). assert (Z : rtc (direct (h_env h)) j i) by (apply tc_rtc; exact X). apply rtc_inv_r in Z as [Z|(y & _ & Z)]; [contradiction|]. eapply U; eauto.
Qed.

(** ** Clients that manage their groups and documents *)
Definition agrees (h : client) : Prop := forall j, is_Some (h_docs h !! j) -> kept h j /\ forall m, in_key h j m <-> m = j \/ person_of (h_env h) j m.
Lemma moved_kept h h' j K : moved h h' j K -> kept h j -> kept h' j /\ forall m, in_key h' j m <-> K m.
Proof. intros M (key & ops & pcs & U). destruct (M key ops pcs U) as (ops' & pcs' & A & B). split; [eexists _, _, _; exact A|exact B]. Qed.
Lemma same_kept h h' j : cgka_of h' j = cgka_of h j -> kept h j -> kept h' j.
Proof. intros E (key & ops & pcs & c & Ec & X). exists key, ops, pcs, c. split; [congruence|exact X]. Qed.

Lemma content_agrees h h' j : core h h' -> (forall x, x <> j -> cgka_of h' x = cgka_of h x) -> (kept h j -> moved h h' j (in_key h j)) -> tidy order P h -> agrees h ->
  tidy order P h' /\ agrees h'.
Proof.
  intros C O M T A. split; [eapply core_tidy; eauto|]. intros x Hx. rewrite (core_env _ _ C). destruct C as (_ & E2 & _). rewrite E2 in Hx. destruct (A x Hx) as [K B].
  destruct (decide (x = j)) as [->|N].
  - destruct (moved_kept _ _ _ _ (M K) K) as [K' B']. split; [exact K'|]. intros m. rewrite B'. apply B.
  - split; [apply (same_kept h); [auto|exact K]|]. intros m. rewrite (in_key_eq _ _ _ _ (O x N)). apply B.
Qed.
Lemma update_effect h j sk x rng h' r : hive_update horder rorder h j sk x rng = (h', r) ->
  core h h' /\ (forall y, y <> j -> cgka_of h' y = cgka_of h y) /\ moved h h' j (in_key h j).
Proof.
  unfold hive_update. intros Q. destruct (cgka_of h j) as [c|] eqn:E.
  - destruct (cgka_update horder rorder c sk x rng) as [c' r'] eqn:A. injection Q as <- _. split; [apply put_cgka_core|].
    split; [intros y N; rewrite cgka_put, decide_False by exact N; reflexivity|].
    intros key ops pcs U. apply good_up in U as (c0 & E0 & G). rewrite E in E0. injection E0 as <-.
    destruct (update_good horder rorder j key _ _ _ _ _ _ _ _ G A) as (ops' & pcs' & G' & M & _).
    assert (E' : cgka_of (put_cgka h j c') j = Some c') by (rewrite cgka_put, decide_True; reflexivity).
    exists ops', pcs'. split; [apply good_up; eauto|]. intros m. rewrite (in_key_at _ _ _ _ E'), (in_key_at _ _ _ _ E), M. reflexivity.
  - injection Q as <- _. split; [apply core_refl|]. split; [reflexivity|]. apply moved_same; reflexivity.
Qed.
Lemma encrypt_effect h j ref content preds sk x rng h' r : hive_encrypt horder rorder h j ref content preds sk x rng = (h', r) ->
  core h h' /\ (forall y, y <> j -> cgka_of h' y = cgka_of h y) /\ moved h h' j (in_key h j).
Proof.
  unfold hive_encrypt. intros Q. destruct (cgka_of h j) as [c|] eqn:E.
  - destruct (new_app_secret_for horder rorder c ref content preds sk x rng) as [c' r'] eqn:A. injection Q as <- _. split; [apply put_cgka_core|].
    split; [intros y N; rewrite cgka_put, decide_False by exact N; reflexivity|].
    intros key ops pcs U. apply good_up in U as (c0 & E0 & G). rewrite E in E0. injection E0 as <-.
    destruct (encrypt_good horder rorder j key _ _ _ _ _ _ _ _ _ _ _ G A) as (ops' & pcs' & G' & M).
    assert (E' : cgka_of (put_cgka h j c') j = Some c') by (rewrite cgka_put, decide_True; reflexivity).
    exists ops', pcs'. split; [apply good_up; eauto|]. intros m. rewrite (in_key_at _ _ _ _ E'), (in_key_at _ _ _ _ E), M. reflexivity.
  - injection Q as <- _. split; [apply core_refl|]. split; [reflexivity|]. apply moved_same; reflexivity.
Qed.
Lemma decrypt_effect h j e h' r : hive_decrypt rorder h j e = (h', r) ->
  core h h' /\ (forall y, y <> j -> cgka_of h' y = cgka_of h y) /\ moved h h' j (in_key h j).
Proof.
  unfold hive_decrypt. intros Q. destruct (cgka_of h j) as [c|] eqn:E.
  - destruct (decryption_key_for rorder c e) as [c' r'] eqn:A. assert (h' = put_cgka h j c') as -> by (destruct r'; injection Q; auto). split; [apply put_cgka_core|].
    split; [intros y N; rewrite cgka_put, decide_False by exact N; reflexivity|].
    intros key ops pcs U. apply good_up in U as (c0 & E0 & G). rewrite E in E0. injection E0 as <-. apply decrypt_same in A.
    assert (E' : cgka_of (put_cgka h j c') j = Some c') by (rewrite cgka_put, decide_True; reflexivity).
    exists [], []. rewrite !app_nil_r. split; [apply good_up; exists c'; split; [exact E'|eapply same_good; eauto]|]. intros m. rewrite (in_key_at _ _ _ _ E'), (in_key_at _ _ _ _ E).
    destruct A as (_ & -> & _). reflexivity.
  - injection Q as <- _. split; [apply core_refl|]. split; [reflexivity|]. apply moved_same; reflexivity.
Qed.

Lemma add_agrees h i who can content s hs h' d ops : tidy order P h -> agrees h -> is_reader can = true -> not_nested h i ->
  hive_add_member order horder rorder pick h i who can content s hs = (h', DOk (d, ops)) -> P (MD d) -> only_joined (h_env h) (h_env h') i who ->
  tidy order P h' /\ agrees h'.
Proof.
  intros T A Rd NN Q Pd J. destruct (add_effect h i who can content s hs h' d ops T Q Pd) as (h1 & g & Ch & C & Env & Acy & Acy' & _ & _ & _ & M).
  pose proof (core_env _ _ C) as Ee. pose proof C as (_ & E2 & _). split; [eapply core_tidy; [exact C|apply (ch_tidy _ _ _ _ Ch)]|].
  intros j Hj. rewrite E2 in Hj. apply (ch_docs _ _ _ _ Ch) in Hj. destruct (A j Hj) as [K B]. destruct (moved_kept _ _ _ _ (M j Hj) K) as [K' B']. split; [exact K'|].
  intros m. rewrite B', B. clear B B' M K K'.
  assert (Off : forall y z, y <> i -> direct (h_env h) y z <-> direct (h_env h') y z) by (intros y z Ny; rewrite Ee; apply (changed_direct _ _ _ _ _ _ Ch Ny)).
  assert (Non : forall x, h_env h' !! x = None <-> h_env h !! x = None) by (intros x; rewrite Ee; apply (changed_none _ _ _ _ _ Ch Env)).
  unfold person_of, stands_for, concerns, belongs. rewrite !Non, (join_tc _ _ i Off who J j m), (join_behind _ _ i Off who J (Acy' i) m), (join_above _ _ i Off who J (Acy' i) j).
  assert (X : j = i \/ (is_Some (h_groups h !! i) /\ tc (direct (h_env h)) j i) <-> rtc (direct (h_env h)) j i).
  { rewrite rtc_belongs. unfold belongs. split; [intros [->|[_ X]]; auto|]. intros [->|X]; [auto|]. right. split; [|exact X].
    destruct Env as [mems Em]. apply (env_group order P h T) in Em as (g0 & [G|G] & _); [eauto|]. exfalso. apply (NN (ex_intro _ _ G) j Hj), X. }
  rewrite X. tauto.
Qed.
Lemma revoke_agrees h i target retain content sigs hs h' rs ds ops : tidy order P h -> agrees h -> not_nested h i ->
  hive_revoke_member order horder rorder h i target retain content sigs hs = (h', DOk (rs, ds, ops)) ->
  (forall r, r ∈ rs -> P (MR r)) -> (forall d, d ∈ ds -> P (MD d)) -> only_left (h_env h) (h_env h') i target ->
  tidy order P h' /\ agrees h'.
Proof.
  intros T A NN Q Pr Pd J. destruct (revoke_effect h i target retain content sigs hs h' rs ds ops T Q Pr Pd) as (h1 & g & Ch & C & Env & Acy & M).
  pose proof (core_env _ _ C) as Ee. pose proof C as (_ & E2 & _). split; [eapply core_tidy; [exact C|apply (ch_tidy _ _ _ _ Ch)]|].
  intros j Hj. rewrite E2 in Hj. apply (ch_docs _ _ _ _ Ch) in Hj. destruct (A j Hj) as [K B]. destruct (moved_kept _ _ _ _ (M j Hj) K) as [K' B']. split; [exact K'|].
  intros m. rewrite B', B. clear B B' M K K'.
  assert (Off : forall y z, y <> i -> direct (h_env h) y z <-> direct (h_env h') y z) by (intros y z Ny; rewrite Ee; apply (changed_direct _ _ _ _ _ _ Ch Ny)).
  assert (Non : forall x, h_env h' !! x = None <-> h_env h !! x = None) by (intros x; rewrite Ee; apply (changed_none _ _ _ _ _ Ch Env)).
  assert (Ej : h_env h !! j <> None). { destruct Hj as [gj Gj]. destruct (env_at h j gj T (or_intror Gj)) as [? ->]. discriminate. }
  unfold person_of, stands_for, concerns, belongs. rewrite !Non. split.
  - intros [[->|[X Y]] Z]; [auto|]. right. split; [|exact Y]. destruct (leave_lost _ _ i Off target J j m X) as [W|(W1 & W2 & W3)]; [exact W|].
    apply Z; [|exact W2|auto]. apply rtc_belongs in W1 as [->|W1]; [auto|]. right. split; [|exact W1].
    destruct Env as [mems Em]. apply (env_group order P h T) in Em as (g0 & [G|G] & _); [eauto|]. exfalso. apply (NN (ex_intro _ _ G) j Hj). apply (leave_tc _ _ i Off target J), W1.
  - intros [->|[X Y]]; (split; [|]); auto.
    + intros _ _ [_ Z]. contradiction.
    + right. split; [apply (leave_tc _ _ i Off target J), X|exact Y].
Qed.
Lemma managed_agrees h : managed order horder rorder pick P h -> tidy order P h /\ agrees h.
Proof.
  induction 1 as [h E1 E2 E3|h i ps ct h' Mh [T A] U N ND Ni Pp Q|h i ps ct sk h0 hs hu rng h' ops Mh [T A] U N ND Ni Pp Q|h i who can ct s hs h' d ops Mh [T A] Rd NN Q Pd J|
    h i target retain ct sigs hs h' rs ds ops Mh [T A] NN Q Pr Pd J|h j sk x rng h' r Mh [T A] Q|h j ref ct preds sk x rng h' r Mh [T A] Q|h j e h' r Mh [T A] Q].
  - split.
    + split; [|split]; unfold has_group, h_env; rewrite ?E1, ?E2.
      * intros i g [X|X]; rewrite lookup_empty in X; discriminate.
      * intros i [? X]. rewrite lookup_empty in X. discriminate.
      * reflexivity.
    + intros j [? X]. rewrite E2, lookup_empty in X. discriminate.
  - destruct (generate_group_effect h i ps ct h' T U N ND Pp Q) as (g & M & Ed). split; [apply (mk_tidy _ _ _ _ M)|]. intros j Hj. rewrite Ed in Hj. destruct (A j Hj) as [K B].
    assert (Ec : cgka_of h' j = cgka_of h j) by (unfold cgka_of; rewrite (mk_cg _ _ _ _ M); reflexivity).
    assert (Nj : j <> i). { intros ->. destruct U as (U & _). apply env_none in U as [_ U]. rewrite U in Hj. destruct Hj. discriminate. }
    split; [apply (same_kept h); [auto|exact K]|]. intros m. rewrite (in_key_eq _ _ _ _ Ec), B, (made_person _ _ _ _ _ _ M U Nj). reflexivity.
  - destruct (generate_doc_effect h i ps ct sk h0 hs hu rng h' ops T U N ND Pp Q) as (g & h1 & M & C & Ed & O & (l & pc & _ & Up) & B1).
    split; [eapply core_tidy; [exact C|apply (mk_tidy _ _ _ _ M)]|]. intros j Hj. rewrite Ed in Hj. destruct (decide (j = i)) as [->|Nj]; [split; [eexists _, _, _; exact Up|exact B1]|].
    rewrite lookup_insert_ne in Hj by congruence. destruct (A j Hj) as [K B]. split; [apply (same_kept h); [auto|exact K]|].
    intros m. rewrite (in_key_eq _ _ _ _ (O j Nj)), B, (core_env _ _ C), (made_person _ _ _ _ _ _ M U Nj). reflexivity.
  - eapply add_agrees; eauto.
  - eapply revoke_agrees; eauto.
  - destruct (update_effect _ _ _ _ _ _ _ Q) as (C & O & M). eapply content_agrees; eauto.
  - destruct (encrypt_effect _ _ _ _ _ _ _ _ _ _ Q) as (C & O & M). eapply content_agrees; eauto.
  - destruct (decrypt_effect _ _ _ _ _ Q) as (C & O & M). eapply content_agrees; eauto.
Qed.
End effects.
