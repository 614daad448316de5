(** Lemmas about node keys and secret stores. *)
From Coq Require Import Arith Lia Sorted Permutation.
From stdpp Require Import base list gmap sorting.
From Verif Require Import ResModel KeysModel KeysSpec.

Lemma list_filter_all {A} (l : list A) (P : A -> Prop) `{forall x, Decision (P x)} :
  (forall x, x ∈ l -> P x) -> filter P l = l.
Proof.
  induction l as [|x l IH]; intros F; [reflexivity|].
  rewrite filter_cons_True by (apply F; left). f_equal. apply IH. intros y Hy. apply F. right. exact Hy.
Qed.

Lemma insert_sorted_perm k l : insert_sorted k l ≡ₚ k :: l.
Proof.
  induction l as [|x l IH]; cbn [insert_sorted]; [reflexivity|].
  destruct (k <=? x); [reflexivity|]. rewrite IH. apply Permutation_swap.
Qed.
Lemma sort_keys_perm l : sort_keys l ≡ₚ l.
Proof. induction l as [|x l IH]; cbn [sort_keys]; [reflexivity|]. rewrite insert_sorted_perm, IH. reflexivity. Qed.

Lemma insert_sorted_sorted k l : StronglySorted le l -> StronglySorted le (insert_sorted k l).
Proof.
  induction l as [|x l IH]; cbn [insert_sorted]; intros H; [repeat constructor|].
  apply StronglySorted_inv in H as [H1 H2]. destruct (Nat.leb_spec k x) as [L|L].
  - constructor; [constructor; assumption|]. constructor; [exact L|].
    eapply Forall_impl; [exact H2|]. cbn. lia.
  - constructor; [auto|]. rewrite insert_sorted_perm. constructor; [lia|exact H2].
Qed.
Lemma sort_keys_sorted l : StronglySorted le (sort_keys l).
Proof. induction l; cbn [sort_keys]; [constructor|apply insert_sorted_sorted; assumption]. Qed.

Lemma sorted_perm_eq l1 l2 : StronglySorted le l1 -> StronglySorted le l2 -> l1 ≡ₚ l2 -> l1 = l2.
Proof. intros S1 S2 P. apply (StronglySorted_unique le); assumption. Qed.

Lemma nk_of_list_keys l : l <> [] -> exists r, nk_of_list l = Ok r /\ nk_keys r = l.
Proof. destruct l as [|a [|b more]]; intros H; [contradiction| |]; eexists; (split; [reflexivity|]); reflexivity. Qed.

Lemma nk_keys_nonempty n : nk_keys n <> [].
Proof. destruct n; discriminate. Qed.

Lemma nk_keys_inj n n' : nk_keys n = nk_keys n' -> n = n'.
Proof. destruct n, n'; cbn; intros E; try discriminate; congruence. Qed.

Lemma nk_len_keys n : nk_len n = length (nk_keys n).
Proof. destruct n; reflexivity. Qed.

Lemma nk_contains_keys n k : nk_contains n k = bool_decide (k ∈ nk_keys n).
Proof.
  apply eq_bool_prop_intro. destruct n; cbn [nk_contains nk_keys]; rewrite ?orb_True, !bool_decide_spec, ?elem_of_cons;
    rewrite ?elem_of_nil; intuition congruence.
Qed.

Lemma nk_merge_spec self new removed :
  exists r, nk_merge self new removed = Ok r /\
    nk_keys r ≡ₚ nk_keys new ++ filter (fun k => k ∉ removed) (nk_keys self) /\
    (nk_sorted new -> nk_sorted r).
Proof.
  assert (G : forall l, exists r, nk_of_list (sort_keys (nk_keys new ++ l)) = Ok r /\
    nk_keys r ≡ₚ nk_keys new ++ l /\ nk_sorted r).
  { intros l. destruct (nk_of_list_keys (sort_keys (nk_keys new ++ l))) as (r & E & K).
    - intros Z. pose proof (sort_keys_perm (nk_keys new ++ l)) as P. rewrite Z in P.
      apply Permutation_nil in P. apply app_eq_nil in P as [P _]. exact (nk_keys_nonempty _ P).
    - exists r. split; [exact E|]. unfold nk_sorted. rewrite K. split; [apply sort_keys_perm|apply sort_keys_sorted]. }
  unfold nk_merge. destruct self as [k|a b more]; cbn [nk_keys].
  - destruct (decide (k ∈ removed)) as [H|H].
    + exists new. rewrite filter_cons_False by (intros Q; exact (Q H)). rewrite filter_nil, app_nil_r. auto.
    + rewrite filter_cons_True by exact H. rewrite filter_nil. destruct (G [k]) as (r & ? & ? & ?). eauto.
  - destruct (G (filter (fun k => k ∉ removed) (nk_keys (CKeys a b more)))) as (r & ? & ? & ?). eauto.
Qed.

(** Merging a list of updates (new key, replaced keys) one after the other. *)
Lemma nk_merges_spec us n :
  concurrent_keys us -> (forall u, u ∈ us -> nk_sorted u.1) -> nk_sorted n ->
  exists r, nk_merges n us = Ok r /\ nk_sorted r /\ nk_keys r ≡ₚ surviving_keys n us.
Proof.
  revert n; induction us as [|[k rm] us IH]; intros n C S N; cbn [nk_merges].
  - exists n. split; [reflexivity|]. split; [exact N|]. unfold surviving_keys. cbn. rewrite app_nil_r.
    rewrite (list_filter_all _ (fun k => k ∉ [])); [reflexivity|]. intros x _. apply not_elem_of_nil.
  - cbn [fst snd]. destruct (nk_merge_spec n k rm) as (r & E & P & So). rewrite E. cbn [rbind].
    destruct (IH r) as (r' & E' & S' & P').
    + intros u u' x Hu Hu'. apply C; right; assumption.
    + intros u Hu. apply S. right. exact Hu.
    + apply So, (S (k, rm)). left.
    + exists r'. split; [exact E'|]. split; [exact S'|]. rewrite P'. unfold surviving_keys.
      rewrite P, filter_app. cbn [map concat fst snd]. rewrite list_filter_filter.
      rewrite (list_filter_all (nk_keys k)).
      * rewrite <- app_assoc. rewrite Permutation_app_swap_app. f_equiv.
        apply Permutation_refl', list_filter_iff. intros x. rewrite elem_of_app. tauto.
      * intros x Hx Q. apply elem_of_list_In, in_concat in Q as (l & Hl & Hxl).
        apply in_map_iff in Hl as (u & <- & Hu).
        apply (C (k, rm) u x); [left|right; apply elem_of_list_In; exact Hu|exact Hx|apply elem_of_list_In; exact Hxl].
Qed.

Lemma concat_map_perm {A B} (f : A -> list B) l l' : l ≡ₚ l' -> concat (map f l) ≡ₚ concat (map f l').
Proof.
  induction 1 as [|x l l' _ IH|x y l|l1 l2 l3 _ IH1 _ IH2]; cbn; [reflexivity| | |].
  - rewrite IH. reflexivity.
  - apply Permutation_app_swap_app.
  - rewrite IH1. exact IH2.
Qed.

Lemma surviving_keys_perm n us us' : us ≡ₚ us' -> surviving_keys n us ≡ₚ surviving_keys n us'.
Proof.
  intros P. unfold surviving_keys. f_equiv; [|apply concat_map_perm; exact P].
  - apply Permutation_refl', list_filter_iff. intros x.
    enough (Q : concat (map snd us) ≡ₚ concat (map snd us')) by (rewrite Q; reflexivity).
    apply concat_map_perm. exact P.
Qed.

Lemma nk_merges_perm us us' n :
  us ≡ₚ us' -> concurrent_keys us -> (forall u, u ∈ us -> nk_sorted u.1) -> nk_sorted n ->
  nk_merges n us = nk_merges n us'.
Proof.
  intros P C S N. destruct (nk_merges_spec us n C S N) as (r & E & Sr & K).
  destruct (nk_merges_spec us' n) as (r' & E' & Sr' & K').
  - intros u u' k. rewrite <- P. apply C.
  - intros u. rewrite <- P. apply S.
  - exact N.
  - rewrite E, E'. f_equal. apply nk_keys_inj, sorted_perm_eq; [exact Sr|exact Sr'|].
    rewrite K, K'. apply surviving_keys_perm. exact P.
Qed.

(** ** Secret stores *)
Lemma store_merges_spec us s : concurrent_versions us ->
  foldl (fun s u => store_merge s u.1 u.2) s us = surviving_versions s us.
Proof.
  revert s; induction us as [|[o rm] us IH]; intros s C; cbn [foldl].
  - unfold surviving_versions. cbn. rewrite app_nil_r.
    rewrite (list_filter_all _ (fun v => v_pk v ∉ [])); [reflexivity|]. intros x _. apply not_elem_of_nil.
  - rewrite IH by (intros u u' x Hu Hu'; apply C; right; assumption).
    unfold surviving_versions, store_merge, remove_keys_from. cbn [map concat fst snd].
    unfold store in *. rewrite filter_app, list_filter_filter, <- app_assoc. f_equal.
    + apply list_filter_iff. intros x. rewrite elem_of_app. tauto.
    + f_equal. apply list_filter_all. intros x Hx Q. apply elem_of_list_In, in_concat in Q as (l & Hl & Hxl).
      apply in_map_iff in Hl as (u & <- & Hu).
      apply (C (o, rm) u x); [left|right; apply elem_of_list_In; exact Hu|exact Hx|apply elem_of_list_In; exact Hxl].
Qed.

(** ** The statements of [KeysProps] *)
Lemma node_key_merge_keys_lemma self new removed :
  exists r, nk_merge self new removed = Ok r /\
    let kept := filter (fun k => k ∉ removed) (nk_keys self) ++ nk_keys new in
    nk_keys r ≡ₚ kept /\
    nk_len r = length kept /\
    (forall k, nk_contains r k = bool_decide (k ∈ kept)) /\
    ((exists k, r = SKey k) <-> length kept = 1) /\
    (nk_sorted new -> nk_sorted r).
Proof.
  destruct (nk_merge_spec self new removed) as (r & E & P & S). exists r. split; [exact E|].
  cbv zeta. set (kept := filter _ _ ++ _).
  assert (Q : nk_keys r ≡ₚ kept) by (rewrite P; apply Permutation_app_comm).
  split; [exact Q|]. split; [rewrite nk_len_keys, Q; reflexivity|].
  split; [intros k; rewrite nk_contains_keys; apply bool_decide_ext; rewrite Q; reflexivity|].
  split; [|exact S]. rewrite <- Q. destruct r as [k|a b more]; cbn; split; intros H.
  - reflexivity.
  - eauto.
  - destruct H as [k H]. discriminate.
  - lia.
Qed.

Lemma node_key_merge_order_lemma us us' n :
  us ≡ₚ us' -> concurrent_keys us -> (forall u, u ∈ us -> nk_sorted u.1) -> nk_sorted n ->
  nk_merges n us = nk_merges n us' /\
  exists r, nk_merges n us = Ok r /\ nk_sorted r /\ nk_keys r ≡ₚ surviving_keys n us.
Proof. intros P C S N. split; [apply nk_merges_perm; assumption|apply nk_merges_spec; assumption]. Qed.

Lemma store_never_empty_lemma s us :
  s <> [] -> (forall u, u ∈ us -> u.1 <> []) ->
  let s' := foldl (fun s u => store_merge s u.1 u.2) s us in
  s' <> [] /\ exists nk, store_node_key s' = Ok nk /\ nk_keys nk = map v_pk s'.
Proof.
  cbv zeta. intros N U. assert (H : foldl (fun s u => store_merge s u.1 u.2) s us <> []).
  { revert s N; induction us as [|u us IH]; intros s N; cbn [foldl]; [exact N|].
    apply IH; [intros v Hv; apply U; right; exact Hv|].
    unfold store_merge. intros Q. apply app_eq_nil in Q as [_ Q]. apply (U u); [left|exact Q]. }
  split; [exact H|]. apply nk_of_list_keys. intros Q. apply map_eq_nil in Q. contradiction.
Qed.

Lemma store_versions_partial_lemma s us us' :
  us ≡ₚ us' -> concurrent_versions us ->
  foldl (fun s u => store_merge s u.1 u.2) s us = surviving_versions s us /\
  foldl (fun s u => store_merge s u.1 u.2) s us' ≡ₚ foldl (fun s u => store_merge s u.1 u.2) s us.
Proof.
  intros P C. split; [apply store_merges_spec; exact C|].
  rewrite !store_merges_spec; [|exact C|intros u u' v; rewrite <- P; apply C].
  unfold surviving_versions. f_equiv; [|symmetry; apply concat_map_perm; exact P].
  apply Permutation_refl', list_filter_iff. intros x.
  enough (Q : concat (map snd us) ≡ₚ concat (map snd us')) by (rewrite Q; reflexivity).
  apply concat_map_perm. exact P.
Qed.

Lemma store_versions_sorted_refuted_lemma :
  exists s us us', store_sorted s /\ us ≡ₚ us' /\ concurrent_versions us /\
    (forall u, u ∈ us -> store_sorted u.1) /\
    ~ store_sorted (foldl (fun s u => store_merge s u.1 u.2) s us) /\
    store_node_key (foldl (fun s u => store_merge s u.1 u.2) s us) <>
    store_node_key (foldl (fun s u => store_merge s u.1 u.2) s us').
Proof.
  exists [Version 1 ∅ 0], [([Version 3 ∅ 0], [1]); ([Version 2 ∅ 0], [1])], [([Version 2 ∅ 0], [1]); ([Version 3 ∅ 0], [1])].
  split; [repeat constructor|]. split; [apply Permutation_swap|]. split.
  - intros u u' v Hu Hu' Hv. rewrite !elem_of_cons, elem_of_nil in Hu, Hu'.
    destruct_or!; subst; try contradiction; cbn in *; rewrite elem_of_list_singleton in Hv; subst; cbn;
      rewrite elem_of_list_singleton; lia.
  - split.
    + intros u Hu. rewrite !elem_of_cons, elem_of_nil in Hu. destruct_or!; subst; try contradiction; repeat constructor.
    + split; [|discriminate]. intros H. apply StronglySorted_inv in H as [_ H]. vm_compute in H.
      apply Forall_cons in H as [H _]. lia.
Qed.
