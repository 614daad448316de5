(** What the calls that change members do to the group keys of documents, for any client. *)
From Coq Require Import Arith Lia.
From stdpp Require Import base list gmap relations.
From Verif Require Import ResModel KeysModel TreeModel TreeSpec TreeOps TreeRun OpsModel CgkaModel.
From Verif Require Import AccessModel GroupModel CgkaSpec GroupSpec GroupHistory GroupTransitive GroupPropsProofs PrekeyModel HiveModel HiveSpec SyncModel.
From Verif Require Import DocModel DocSpec DocKeys DocProofs DocEffects.

Section effects.
Context (order : gset nat -> list nat) (Hord : some_order order) (horder : gset digest -> list digest) (rorder : gset (member_id * nat) -> list (member_id * nat)).
Context (pick : ident -> ident -> share_key) (P : mop -> Prop) (WS : well_signed P) (hs : ident -> list digest).
(** [Lax]: removals that are not possible are passed over. *)
Context (Lax : Prop).
Notation changed := (DocEffects.changed order P).
Notation change_group := (DocEffects.change_group order P).
Notation change_doc := (DocEffects.change_doc order P).
Notation changed_key := (DocEffects.changed_key order P).
Notation changed_none := (DocEffects.changed_none order P).
Notation env_at := (DocEffects.env_at order P).
Notation order_docs := (DocEffects.order_docs order Hord).
Notation revoke_history := (DocEffects.revoke_history order Hord P WS).
Notation ch_tidy := (DocEffects.ch_tidy order P).
Notation ch_env := (DocEffects.ch_env order P).
Notation ch_docs := (DocEffects.ch_docs order P).
Notation ch_groups := (DocEffects.ch_groups order P).

(** The group key of [j] was left alone, or changed by one run of additions or removals; [K] are
    those who should have a place then. *)
Definition ran (h h' : client) (j : ident) (K : ident -> Prop) : Prop :=
  (cgka_of h' j = cgka_of h j /\ forall m, in_key h j m <-> K m) \/
  exists c c', cgka_of h j = Some c /\ cgka_of h' j = Some c' /\
    ((exists l o, add_keys horder rorder c l (hs j) = (c', Ok o) /\ forall m, K m <-> in_key h j m \/ m ∈ map fst l) \/
     (exists l o, remove_keys horder rorder c l (hs j) = (c', Ok o) /\ forall m, K m <-> in_key h j m /\ m ∉ l) \/
     (exists l o, Lax /\ NoDup l /\ try_remove_keys horder rorder c l (hs j) = (c', Ok o) /\ forall m, K m <-> in_key h j m /\ m ∉ l)).
Lemma ran_same h h' j (K : ident -> Prop) : cgka_of h' j = cgka_of h j -> (forall m, in_key h j m <-> K m) -> ran h h' j K.
Proof. left. auto. Qed.
Lemma ran_from h0 h h' j K : cgka_of h j = cgka_of h0 j -> ran h h' j K -> ran h0 h' j K.
Proof. intros E. unfold ran, in_key. rewrite E. auto. Qed.
Lemma ran_to h h1 h' j K : cgka_of h' j = cgka_of h1 j -> ran h h1 j K -> ran h h' j K.
Proof. intros E. unfold ran. rewrite E. auto. Qed.
Lemma ran_iff h h' j (K K' : ident -> Prop) : (forall m, K m <-> K' m) -> ran h h' j K -> ran h h' j K'.
Proof.
  intros E [[A B]|(c & c' & A & B & [(l & o & C & D)|[(l & o & C & D)|(l & o & Hg & N & C & D)]])].
  - left. split; [exact A|]. intros m. rewrite <- E. apply B.
  - right. exists c, c'. split; [exact A|]. split; [exact B|]. left. exists l, o. split; [exact C|]. intros m. rewrite <- E. apply D.
  - right. exists c, c'. split; [exact A|]. split; [exact B|]. right. left. exists l, o. split; [exact C|]. intros m. rewrite <- E. apply D.
  - right. exists c, c'. split; [exact A|]. split; [exact B|]. right. right. exists l, o. split; [exact Hg|]. split; [exact N|]. split; [exact C|]. intros m. rewrite <- E. apply D.
Qed.
Lemma doc_add_ran h j l h' ops : doc_add_keys horder rorder h j l (hs j) = (h', DOk ops) ->
  core h h' /\ (forall x, x <> j -> cgka_of h' x = cgka_of h x) /\ ran h h' j (fun m => in_key h j m \/ m ∈ map fst l).
Proof.
  unfold doc_add_keys. intros Q. destruct l as [|y l].
  { injection Q as <- <-. split; [apply core_refl|]. split; [reflexivity|]. apply ran_same; [reflexivity|]. intros m. cbn. rewrite elem_of_nil. tauto. }
  destruct (cgka_of h j) as [c|] eqn:E; [|discriminate]. destruct (add_keys horder rorder c (y :: l) (hs j)) as [c' r] eqn:A. injection Q as <- Q.
  destruct r as [o| | |]; try discriminate. split; [apply put_cgka_core|]. split; [intros x N; rewrite cgka_put, decide_False by exact N; reflexivity|].
  right. exists c, c'. split; [exact E|]. split; [rewrite cgka_put, decide_True; reflexivity|]. left. exists (y :: l), o. split; [exact A|reflexivity].
Qed.
Lemma remove_ran h j c l c' o : cgka_of h j = Some c -> remove_keys horder rorder c l (hs j) = (c', Ok o) ->
  ran h (put_cgka h j c') j (fun m => in_key h j m /\ m ∉ l).
Proof. intros E A. right. exists c, c'. split; [exact E|]. split; [rewrite cgka_put, decide_True; reflexivity|]. right. left. exists l, o. split; [exact A|reflexivity]. Qed.
Lemma try_remove_ran h j c l c' o : Lax -> NoDup l -> cgka_of h j = Some c -> try_remove_keys horder rorder c l (hs j) = (c', Ok o) ->
  ran h (put_cgka h j c') j (fun m => in_key h j m /\ m ∉ l).
Proof. intros Hg N E A. right. exists c, c'. split; [exact E|]. split; [rewrite cgka_put, decide_True; reflexivity|]. right. right. exists l, o. split; [exact Hg|]. split; [exact N|]. split; [exact A|reflexivity]. Qed.

Lemma add_to_docs_ran gid who docs : NoDup docs -> forall h h' ops, tidy order P h -> is_Some (h_groups h !! gid) ->
  add_to_docs order horder rorder pick h gid who docs hs = (h', DOk ops) ->
  core h h' /\ (forall x, x ∉ docs -> cgka_of h' x = cgka_of h x) /\
  forall j, j ∈ docs -> is_Some (h_docs h !! j) -> ran h h' j (fun m => in_key h j m \/ (belongs (h_env h) j gid /\ stands_for (h_env h) who m)).
Proof.
  induction docs as [|j docs IH]; intros ND h h' ops T Hg Q; cbn [add_to_docs] in Q.
  { injection Q as <- <-. split; [apply core_refl|]. split; [reflexivity|]. intros j X. inversion X. }
  apply NoDup_cons in ND as [Nj ND].
  assert (Skip : forall h1 ops1, core h h1 -> (forall x, x <> j -> cgka_of h1 x = cgka_of h x) ->
     (is_Some (h_docs h !! j) -> ran h h1 j (fun m => in_key h j m \/ (belongs (h_env h) j gid /\ stands_for (h_env h) who m))) ->
     add_to_docs order horder rorder pick h1 gid who docs hs = (h', DOk ops1) ->
     core h h' /\ (forall x, x ∉ j :: docs -> cgka_of h' x = cgka_of h x) /\
     forall j0, j0 ∈ j :: docs -> is_Some (h_docs h !! j0) -> ran h h' j0 (fun m => in_key h j0 m \/ (belongs (h_env h) j0 gid /\ stands_for (h_env h) who m))).
  { intros h1 ops1 C O M E. pose proof (core_env _ _ C) as Ee. pose proof C as (E1 & E2 & _).
    destruct (IH ND h1 h' ops1 (core_tidy order P _ _ C T)) as (C' & O' & M'); [rewrite E1; exact Hg|exact E|].
    split; [eapply core_trans; eauto|]. split.
    - intros x Nx. apply not_elem_of_cons in Nx as [N1 N2]. rewrite O' by exact N2. apply O, N1.
    - intros x Hx Dx. apply elem_of_cons in Hx as [->|Hx].
      + eapply ran_to; [apply O', Nj|]. apply M, Dx.
      + assert (N : x <> j) by (intros ->; contradiction). eapply ran_from; [apply O, N|]. eapply ran_iff; [|apply M'; [exact Hx|rewrite E2; exact Dx]].
        intros m. rewrite Ee, (in_key_eq h h1 x m (O x N)). reflexivity. }
  destruct (h_docs h !! j) as [g|] eqn:Dj.
  2:{ eapply (Skip h); [apply core_refl|reflexivity| |exact Q]. intros [? X]. discriminate. }
  assert (Ng : gid <> j) by (intros ->; apply (proj1 (proj2 T) j); eauto).
  pose proof (reaches_spec order Hord P WS h T j g gid (or_intror Dj) Ng) as RS.
  destruct (reaches order h gid g) eqn:R; cbn [negb] in Q.
  - destruct (pick_spec order Hord pick P WS h T who j) as (l & El & Hl). rewrite El in Q.
    destruct (doc_add_keys horder rorder h j l (hs j)) as [h1 r] eqn:A. destruct r as [o|]; [|discriminate].
    destruct (add_to_docs order horder rorder pick h1 gid who docs hs) as [h2 r2] eqn:A2. destruct r2 as [o2|]; [|discriminate]. injection Q as <- <-.
    destruct (doc_add_ran _ _ _ _ _ A) as (C & O & M). eapply (Skip h1); [exact C|exact O| |exact A2]. intros _. eapply ran_iff; [|exact M].
    intros m. cbv beta. rewrite Hl. assert (belongs (h_env h) j gid) by (apply RS; reflexivity). tauto.
  - eapply (Skip h); [apply core_refl|reflexivity| |exact Q]. intros _. apply ran_same; [reflexivity|]. intros m.
    assert (~ belongs (h_env h) j gid) by (intros X; apply RS in X; discriminate). tauto.
Qed.

Lemma remove_from_docs_ran gid ids docs : Lax -> NoDup docs -> forall h h' ops, tidy order P h -> is_Some (h_groups h !! gid) ->
  (forall m, m ∈ ids -> h_env h !! m = None) ->
  remove_from_docs order horder rorder h gid ids docs hs = (h', DOk ops) ->
  core h h' /\ (forall x, x ∉ docs -> cgka_of h' x = cgka_of h x) /\
  forall j, j ∈ docs -> is_Some (h_docs h !! j) -> ran h h' j (fun m => in_key h j m /\ (belongs (h_env h) j gid -> m ∈ ids -> person_of (h_env h) j m)).
Proof.
  intros HL. induction docs as [|j docs IH]; intros ND h h' ops T Hg Hi Q; cbn [remove_from_docs] in Q.
  { injection Q as <- <-. split; [apply core_refl|]. split; [reflexivity|]. intros j X. inversion X. }
  apply NoDup_cons in ND as [Nj ND].
  assert (Skip : forall h1 ops1, core h h1 -> (forall x, x <> j -> cgka_of h1 x = cgka_of h x) ->
     (is_Some (h_docs h !! j) -> ran h h1 j (fun m => in_key h j m /\ (belongs (h_env h) j gid -> m ∈ ids -> person_of (h_env h) j m))) ->
     remove_from_docs order horder rorder h1 gid ids docs hs = (h', DOk ops1) ->
     core h h' /\ (forall x, x ∉ j :: docs -> cgka_of h' x = cgka_of h x) /\
     forall j0, j0 ∈ j :: docs -> is_Some (h_docs h !! j0) -> ran h h' j0 (fun m => in_key h j0 m /\ (belongs (h_env h) j0 gid -> m ∈ ids -> person_of (h_env h) j0 m))).
  { intros h1 ops1 C O M E. pose proof (core_env _ _ C) as Ee. pose proof C as (E1 & E2 & _).
    destruct (IH ND h1 h' ops1 (core_tidy order P _ _ C T)) as (C' & O' & M'); [rewrite E1; exact Hg|rewrite Ee; exact Hi|exact E|].
    split; [eapply core_trans; eauto|]. split.
    - intros x Nx. apply not_elem_of_cons in Nx as [N1 N2]. rewrite O' by exact N2. apply O, N1.
    - intros x Hx Dx. apply elem_of_cons in Hx as [->|Hx].
      + eapply ran_to; [apply O', Nj|]. apply M, Dx.
      + assert (N : x <> j) by (intros ->; contradiction). eapply ran_from; [apply O, N|]. eapply ran_iff; [|apply M'; [exact Hx|rewrite E2; exact Dx]].
        intros m. rewrite Ee, (in_key_eq h h1 x m (O x N)). reflexivity. }
  destruct (h_docs h !! j) as [g|] eqn:Dj.
  2:{ eapply (Skip h); [apply core_refl|reflexivity| |exact Q]. intros [? X]. discriminate. }
  assert (Ng : gid <> j) by (intros ->; apply (proj1 (proj2 T) j); eauto).
  assert (Ej : is_Some (h_env h !! j)) by (eexists; apply (env_group order P h T); exists g; split; [right; exact Dj|reflexivity]).
  destruct (caps_spec order Hord P WS h T j g (or_intror Dj)) as (caps & Ec & K). rewrite Ec in Q.
  destruct (bool_decide (is_Some (caps !! gid))) eqn:B.
  - apply bool_decide_eq_true in B. apply K in B; [|exact Ng].
    set (gone := order (filter (fun i => ~ (is_Some (caps !! i) /\ h_env h !! i = None)) ids)) in *.
    assert (Hgone : forall m, m ∈ gone <-> m ∈ ids /\ ~ person_of (h_env h) j m).
    { intros m. unfold gone. rewrite (Hord _), elem_of_elements, elem_of_filter. unfold person_of. split.
      - intros [X Y]. split; [exact Y|]. intros [Z1 Z2]. apply X. split; [|exact Z2]. apply K; [|exact Z1]. intros ->. destruct Ej. congruence.
      - intros [Y X]. split; [|exact Y]. intros [Z1 Z2]. apply X. split; [|exact Z2]. apply K; [|exact Z1]. intros ->. destruct Ej. congruence. }
    assert (Njg : j ∉ gone). { intros X. apply Hgone in X as [X _]. apply Hi in X. destruct Ej. congruence. }
    assert (Eq : forall m, (in_key h j m /\ m ∉ gone) <-> (in_key h j m /\ (belongs (h_env h) j gid -> m ∈ ids -> person_of (h_env h) j m))).
    { intros m. rewrite Hgone. split; intros [X Y]; (split; [exact X|]).
      - intros _ Z. destruct (decide (is_Some (caps !! m))) as [W|W].
        + split; [apply K; [|exact W]|apply Hi, Z]. intros ->. apply Hi in Z. destruct Ej. congruence.
        + exfalso. apply Y. split; [exact Z|]. intros [V _]. apply W, K; [|exact V]. intros ->. apply Hi in Z. destruct Ej. congruence.
      - intros [Z1 Z2]. apply Z2, Y; assumption. }
    destruct (cgka_of h j) as [c|] eqn:Ecg.
    + destruct (try_remove_keys horder rorder c gone (hs j)) as [c' r] eqn:A. destruct r as [o| | |]; try (cbn [of_res] in Q; discriminate).
      destruct (remove_from_docs order horder rorder (put_cgka h j c') gid ids docs hs) as [h2 r2] eqn:A2. destruct r2 as [o2|]; [|discriminate]. injection Q as <- <-.
      eapply (Skip (put_cgka h j c')); [apply put_cgka_core|intros x N; rewrite cgka_put, decide_False by exact N; reflexivity| |exact A2].
      intros _. eapply ran_iff; [exact Eq|]. eapply try_remove_ran; [exact HL| |exact Ecg|exact A]. unfold gone. rewrite (Hord _). apply NoDup_elements.
    + eapply (Skip h); [apply core_refl|reflexivity| |exact Q]. intros _. apply ran_same; [reflexivity|]. intros m. unfold in_key. rewrite Ecg. split; [intros (? & X & _)|intros [(? & X & _) _]]; discriminate.
  - apply bool_decide_eq_false in B. eapply (Skip h); [apply core_refl|reflexivity| |exact Q]. intros _. apply ran_same; [reflexivity|]. intros m.
    assert (~ belongs (h_env h) j gid) by (intros X; apply B, K; assumption). tauto.
Qed.

Lemma add_ran h i who can content s h' d ops : tidy order P h ->
  hive_add_member order horder rorder pick h i who can content s hs = (h', DOk (d, ops)) -> P (MD d) ->
  exists h1 g, changed h i g h1 /\ core h1 h' /\ is_Some (h_env h !! i) /\
    (forall x, ~ belongs (h_env h) x x) /\ (forall x, ~ belongs (h_env h') x x) /\
    d_delegate d = who /\ d_can d = can /\ d_issuer d = me h /\
    forall j, is_Some (h_docs h !! j) ->
      ran h h' j (fun m => in_key h j m \/ (is_reader can = true /\ concerns h (h_env h') i j /\ stands_for (h_env h') who m)).
Proof.
  intros T Q Pd. unfold hive_add_member in Q. destruct (any_loop order h) eqn:L; [discriminate|]. pose proof (no_loops order Hord P WS h T L) as Acy.
  destruct (h_groups h !! i) as [g|] eqn:G.
  - destruct (add_member order (h_env h) g who can (me h) content s) as [[g1 d1]|] eqn:A; [|discriminate]. cbv zeta in Q.
    set (h1 := put_made (put_group h i g1) [d1] []) in *. destruct (delegation_hangs _ _ _ _); [discriminate|]. cbn [orb] in Q. destruct (any_loop order h1) eqn:L1; [discriminate|].
    destruct (proj1 T i g (or_introl G)) as (Ei & ops0 & H0 & P0). pose proof (history_sound order P WS ops0 g H0 P0) as S0.
    destruct (add_member_history order Hord (h_env h) ops0 g who can (me h) content s g1 d1 H0 S0 A) as (H1 & _ & I1 & D1 & C1 & _).
    assert (d1 = d) as ->. { destruct (is_reader can); [|congruence]. destruct (add_to_docs _ _ _ _ _ _ _ _ _) as [? []]; congruence. }
    assert (P1 : forall o, o ∈ MD d :: ops0 -> P o). { intros o Ho. apply elem_of_cons in Ho as [->|Ho]; auto. }
    assert (Ch : changed h i g1 h1).
    { eapply change_group; eauto. rewrite <- Ei. apply (add_member_subject _ _ _ _ _ _ _ _ _ _ A). }
    pose proof (no_loops order Hord P WS h1 (ch_tidy _ _ _ _ Ch) L1) as Acy1. destruct (order_docs h1) as [ND OD].
    assert (Nd : forall j, is_Some (h_docs h !! j) -> j <> i) by (intros j X ->; apply (proj1 (proj2 T) i); eauto).
    destruct (is_reader can) eqn:Rd.
    + destruct (add_to_docs order horder rorder pick h1 i who (order (dom (h_docs h1))) hs) as [h2 r] eqn:AD. destruct r as [o|]; [|discriminate]. injection Q as <- <-.
      destruct (add_to_docs_ran i who _ ND h1 h2 o (ch_tidy _ _ _ _ Ch)) as (C & O & M); [apply (ch_groups _ _ _ _ Ch); eauto|exact AD|].
      pose proof (core_env _ _ C) as Ee. exists h1, g1. rewrite Ee.
      split; [exact Ch|]. split; [exact C|]. split; [eapply env_at; [exact T|left; exact G]|]. split; [exact Acy|]. split; [exact Acy1|]. do 3 (split; [assumption|]).
      intros j Hj. eapply ran_from; [apply (changed_key _ _ _ _ _ Ch)|]. apply (ch_docs _ _ _ _ Ch) in Hj as Hj1. eapply ran_iff; [|apply M; [apply OD, Hj1|exact Hj1]].
      intros m. cbv beta. rewrite (in_key_eq h h1 j m (changed_key _ _ _ _ _ Ch)). unfold concerns. pose proof (Nd j Hj). rewrite G. assert (is_Some (Some g)) by eauto. tauto.
    + injection Q as <- <-. exists h1, g1. split; [exact Ch|]. split; [apply core_refl|]. split; [eapply env_at; [exact T|left; exact G]|]. split; [exact Acy|]. split; [exact Acy1|].
      do 3 (split; [assumption|]). intros j Hj. apply ran_same; [apply (changed_key _ _ _ _ _ Ch)|]. intros m. split; [auto|]. intros [X|[X _]]; [exact X|discriminate].
  - destruct (h_docs h !! i) as [g|] eqn:D; [|discriminate].
    destruct (add_member order (h_env h) g who can (me h) content s) as [[g1 d1]|] eqn:A; [|discriminate]. cbv zeta in Q.
    set (h1 := put_made (put_doc h i g1) [d1] []) in *. destruct (delegation_hangs _ _ _ _); [discriminate|]. cbn [orb] in Q. destruct (any_loop order h1) eqn:L1; [discriminate|].
    destruct (proj1 T i g (or_intror D)) as (Ei & ops0 & H0 & P0). pose proof (history_sound order P WS ops0 g H0 P0) as S0.
    destruct (add_member_history order Hord (h_env h) ops0 g who can (me h) content s g1 d1 H0 S0 A) as (H1 & _ & I1 & D1 & C1 & _).
    assert (d1 = d) as ->. { destruct (is_reader can); [|congruence]. destruct (pick_prekeys _ _ _ _ _); [|congruence]. destruct (doc_add_keys _ _ _ _ _ _) as [? []]; congruence. }
    assert (P1 : forall o, o ∈ MD d :: ops0 -> P o). { intros o Ho. apply elem_of_cons in Ho as [->|Ho]; auto. }
    assert (Ch : changed h i g1 h1).
    { eapply change_doc; eauto. rewrite <- Ei. apply (add_member_subject _ _ _ _ _ _ _ _ _ _ A). }
    pose proof (no_loops order Hord P WS h1 (ch_tidy _ _ _ _ Ch) L1) as Acy1.
    destruct (is_reader can) eqn:Rd.
    + destruct (pick_spec order Hord pick P WS h1 (ch_tidy _ _ _ _ Ch) who i) as (l & El & Hl). rewrite El in Q.
      destruct (doc_add_keys horder rorder h1 i l (hs i)) as [h2 r] eqn:AD. destruct r as [o|]; [|discriminate]. injection Q as <- <-.
      destruct (doc_add_ran _ _ _ _ _ AD) as (C & O & M). pose proof (core_env _ _ C) as Ee. exists h1, g1. rewrite Ee.
      split; [exact Ch|]. split; [exact C|]. split; [eapply env_at; [exact T|right; exact D]|]. split; [exact Acy|]. split; [exact Acy1|]. do 3 (split; [assumption|]).
      intros j Hj. unfold concerns. rewrite G. destruct (decide (j = i)) as [->|N].
      * eapply ran_from; [apply (changed_key _ _ _ _ _ Ch)|]. eapply ran_iff; [|exact M]. intros m. cbv beta. rewrite Hl, (in_key_eq h h1 i m (changed_key _ _ _ _ _ Ch)). tauto.
      * apply ran_same; [rewrite O by exact N; apply (changed_key _ _ _ _ _ Ch)|]. intros m. split; [auto|]. intros [X|(_ & [X|[[? X] _]] & _)]; [exact X|contradiction|discriminate].
    + injection Q as <- <-. exists h1, g1. split; [exact Ch|]. split; [apply core_refl|]. split; [eapply env_at; [exact T|right; exact D]|]. split; [exact Acy|]. split; [exact Acy1|].
      do 3 (split; [assumption|]). intros j Hj. apply ran_same; [apply (changed_key _ _ _ _ _ Ch)|]. intros m. split; [auto|]. intros [X|[X _]]; [exact X|discriminate].
Qed.

Lemma revoke_ran h i target retain content sigs h' rs ds ops : tidy order P h ->
  hive_revoke_member order horder rorder h i target retain content sigs hs = (h', DOk (rs, ds, ops)) ->
  (forall r, r ∈ rs -> P (MR r)) -> (forall d, d ∈ ds -> P (MD d)) -> (is_Some (h_groups h !! i) -> Lax) ->
  exists h1 g, changed h i g h1 /\ core h1 h' /\ is_Some (h_env h !! i) /\ (forall x, ~ belongs (h_env h) x x) /\
    forall j, is_Some (h_docs h !! j) ->
      ran h h' j (fun m => in_key h j m /\ (concerns h (h_env h') i j -> direct (h_env h) i target -> stands_for (h_env h) target m -> person_of (h_env h') j m)).
Proof.
  intros T Q Pr Pd HL. unfold hive_revoke_member in Q. destruct (any_loop order h) eqn:L; [discriminate|]. pose proof (no_loops order Hord P WS h T L) as Acy.
  assert (Beh : forall g, has_group h i g -> exists ids, behind order h (default [] (gr_members g !! target)) = Some ids /\
    forall m, m ∈ ids <-> direct (h_env h) i target /\ stands_for (h_env h) target m).
  { intros g G. destruct (behind_spec order Hord P WS h T (default [] (gr_members g !! target))) as (ids & Ei & Hi). exists ids. split; [exact Ei|].
    assert (Eg : h_env h !! i = Some (gr_members g)) by (apply (env_group order P h T); eauto).
    intros m. rewrite Hi. destruct (gr_members g !! target) as [l|] eqn:Lt; cbn [default].
    - destruct (proj1 (env_sane order Hord P WS h T) _ _ _ _ Eg Lt) as [Nl Dl]. split.
      + intros (d & Hd & X). rewrite (Dl d Hd) in X. split; [exists (gr_members g); split; [exact Eg|eauto]|exact X].
      + intros [_ X]. destruct l as [|d l]; [contradiction|]. exists d. split; [left|]. rewrite (Dl d) by left. exact X.
    - split; [intros (d & Hd & _); inversion Hd|]. intros [(mems & X & Y) _]. rewrite Eg in X. injection X as <-. rewrite Lt in Y. destruct Y. discriminate. }
  destruct (h_groups h !! i) as [g|] eqn:G.
  - destruct (Beh g (or_introl G)) as (ids & Eids & Hids). rewrite Eids in Q.
    destruct (revoke_member order (h_env h) g target retain (me h) content sigs) as [[[g1 rs1] ds1]|] eqn:A; [|discriminate]. destruct (revoking_hangs order (h_env h) g1 rs1 ds1); [discriminate|]. cbv zeta in Q.
    set (h1 := put_made (put_group h i g1) ds1 rs1) in *.
    assert (rs1 = rs /\ ds1 = ds) as [-> ->].
    { destruct (bool_decide (ids = ∅)); [injection Q; auto|]. destruct (remove_from_docs _ _ _ _ _ _ _ _) as [? []]; [injection Q; auto|discriminate]. }
    destruct (revoke_history h i g target retain content sigs g1 rs ds T (or_introl G) A Pr Pd) as (Ei & ops1 & H1 & P1).
    assert (Ch : changed h i g1 h1) by (eapply change_group; eauto).
    assert (Env : is_Some (h_env h !! i)) by (eapply env_at; [exact T|left; exact G]).
    assert (Nd : forall j, is_Some (h_docs h !! j) -> j <> i) by (intros j X ->; apply (proj1 (proj2 T) i); eauto).
    destruct (bool_decide (ids = ∅)) eqn:B.
    + injection Q as <- <-. apply bool_decide_eq_true in B. exists h1, g1. split; [exact Ch|]. split; [apply core_refl|]. split; [exact Env|]. split; [exact Acy|].
      intros j Hj. apply ran_same; [apply (changed_key _ _ _ _ _ Ch)|]. intros m. split; [|tauto]. intros X. split; [exact X|]. intros _ Y Z. exfalso.
      assert (W : m ∈ ids) by (apply Hids; auto). rewrite B in W. apply not_elem_of_empty in W. exact W.
    + destruct (order_docs h1) as [ND OD]. destruct (remove_from_docs order horder rorder h1 i ids (order (dom (h_docs h1))) hs) as [h2 r] eqn:AD. destruct r as [o|]; [|discriminate]. injection Q as <- <-.
      destruct (remove_from_docs_ran i ids _ (HL ltac:(eauto)) ND h1 h2 o (ch_tidy _ _ _ _ Ch)) as (C & O & M); [apply (ch_groups _ _ _ _ Ch); eauto| |exact AD|].
      { intros m Hm. apply Hids in Hm as (_ & _ & Hm). apply (changed_none _ _ _ _ _ Ch Env), Hm. }
      pose proof (core_env _ _ C) as Ee. exists h1, g1. rewrite Ee. split; [exact Ch|]. split; [exact C|]. split; [exact Env|]. split; [exact Acy|].
      intros j Hj. eapply ran_from; [apply (changed_key _ _ _ _ _ Ch)|]. apply (ch_docs _ _ _ _ Ch) in Hj as Hj1. eapply ran_iff; [|apply M; [apply OD, Hj1|exact Hj1]].
      intros m. cbv beta. rewrite (in_key_eq h h1 j m (changed_key _ _ _ _ _ Ch)), Hids. unfold concerns. pose proof (Nd j Hj). rewrite G. assert (is_Some (Some g)) by eauto. tauto.
  - destruct (h_docs h !! i) as [g|] eqn:D; [|discriminate]. destruct (Beh g (or_intror D)) as (ids & Eids & Hids). rewrite Eids in Q.
    destruct (revoke_member order (h_env h) g target retain (me h) content sigs) as [[[g1 rs1] ds1]|] eqn:A; [|discriminate]. destruct (revoking_hangs order (h_env h) g1 rs1 ds1); [discriminate|]. cbv zeta in Q.
    set (h1 := put_made (put_doc h i g1) ds1 rs1) in *.
    assert (rs1 = rs /\ ds1 = ds) as [-> ->].
    { destruct (group_individual_ids _ _ _); [|discriminate]. destruct (order _); [injection Q; auto|]. destruct (cgka_of h1 i); [|discriminate].
      destruct (remove_keys _ _ _ _ _) as [? []]; try discriminate. injection Q; auto. }
    destruct (revoke_history h i g target retain content sigs g1 rs ds T (or_intror D) A Pr Pd) as (Ei & ops1 & H1 & P1).
    assert (Ch : changed h i g1 h1) by (eapply change_doc; eauto).
    assert (Env : is_Some (h_env h !! i)) by (eapply env_at; [exact T|right; exact D]).
    assert (E1 : h_env h1 !! i = Some (gr_members g1)) by (rewrite (ch_env _ _ _ _ Ch); apply lookup_insert).
    destruct (group_individual_ids_spec order (h_env h1) i (gr_members g1) Hord (env_sane order Hord P WS h1 (ch_tidy _ _ _ _ Ch)) E1) as (still & Es & Hs). rewrite Es in Q.
    assert (Hgone : forall m, m ∈ order (ids ∖ still) <-> (direct (h_env h) i target /\ stands_for (h_env h) target m) /\ ~ person_of (h_env h1) i m).
    { intros m. rewrite (Hord _), elem_of_elements, elem_of_difference, Hids, Hs. reflexivity. }
    assert (Eq : forall m, (in_key h i m /\ m ∉ order (ids ∖ still)) <->
      (in_key h i m /\ (concerns h (h_env h1) i i -> direct (h_env h) i target -> stands_for (h_env h) target m -> person_of (h_env h1) i m))).
    { intros m. rewrite Hgone. assert (concerns h (h_env h1) i i) by (left; reflexivity). split; intros [X Y]; (split; [exact X|]); [|tauto].
      intros _ Z1 Z2. destruct (decide (m ∈ still)) as [W|W]; [apply Hs, W|]. exfalso. apply Y. split; [auto|]. intros V. apply W, Hs, V. }
    assert (Other : forall h2, core h1 h2 -> (forall x, x <> i -> cgka_of h2 x = cgka_of h1 x) ->
      ran h h2 i (fun m => in_key h i m /\ m ∉ order (ids ∖ still)) -> exists h1 g, changed h i g h1 /\ core h1 h2 /\ is_Some (h_env h !! i) /\ (forall x, ~ belongs (h_env h) x x) /\
      forall j, is_Some (h_docs h !! j) ->
      ran h h2 j (fun m => in_key h j m /\ (concerns h (h_env h2) i j -> direct (h_env h) i target -> stands_for (h_env h) target m -> person_of (h_env h2) j m))).
    { intros h2 C O M. pose proof (core_env _ _ C) as Ee. exists h1, g1. rewrite Ee. split; [exact Ch|]. split; [exact C|]. split; [exact Env|]. split; [exact Acy|].
      intros j Hj. destruct (decide (j = i)) as [->|N]; [eapply ran_iff; [exact Eq|exact M]|].
      apply ran_same; [rewrite O by exact N; apply (changed_key _ _ _ _ _ Ch)|]. intros m. split; [|tauto]. intros X. split; [exact X|].
      intros [Y|[[? Y] _]]; [contradiction|congruence]. }
    destruct (order (ids ∖ still)) as [|x gone] eqn:Eg.
    + injection Q as <- <-. apply (Other h1); [apply core_refl|reflexivity|]. apply ran_same; [apply (changed_key _ _ _ _ _ Ch)|]. intros m. rewrite elem_of_nil. tauto.
    + destruct (cgka_of h1 i) as [c|] eqn:Ec; [|discriminate].
      destruct (remove_keys horder rorder c (x :: gone) (hs i)) as [c' r] eqn:AD. destruct r as [o| | |]; try (cbn [of_res] in Q; discriminate). injection Q as <- <-.
      apply (Other (put_cgka h1 i c')); [apply put_cgka_core|intros y N; rewrite cgka_put, decide_False by exact N; reflexivity|].
      eapply ran_from; [apply (changed_key _ _ _ _ _ Ch)|]. eapply ran_iff; [|eapply remove_ran; [exact Ec|exact AD]].
      intros m. cbv beta. rewrite (in_key_eq h h1 i m (changed_key _ _ _ _ _ Ch)). reflexivity.
Qed.
End effects.
