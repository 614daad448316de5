(** Resolutions, path encryption and path decryption of [TreeModel], in coordinates. *)
From Coq Require Import Arith Lia.
From stdpp Require Import base list gmap.
From Verif Require Import ResModel KeysModel TreeModel TreeMathModel TreeMathSpec TreeMathProofs TreeSpec TreeView.

(** ** Positions of a tree of height [h] *)
Definition inr (h k j : nat) : Prop := k <= h /\ j < 2 ^ (h - k).

Lemma inr_parent h k j : inr h k j -> k < h -> inr h (S k) (j / 2).
Proof.
  intros [A B] C. split; [lia|]. rewrite <- anc_1. apply anc_lt.
  replace (1 + (h - S k)) with (h - k) by lia. exact B.
Qed.
Lemma inr_child_l h k j : inr h (S k) j -> inr h k (2 * j).
Proof.
  intros [A B]. split; [lia|]. replace (h - k) with (S (h - S k)) by lia. rewrite pow2_S. lia.
Qed.
Lemma inr_child_r h k j : inr h (S k) j -> inr h k (2 * j + 1).
Proof.
  intros [A B]. split; [lia|]. replace (h - k) with (S (h - S k)) by lia. rewrite pow2_S. lia.
Qed.
Lemma inr_sib h k j : inr h k j -> k < h -> inr h k (sib j).
Proof. intros [A B] C. split; [lia|]. apply sib_lt; lia. Qed.
Lemma inr_anc h i d : i < 2 ^ h -> d <= h -> inr h d (anc i d).
Proof. intros A B. split; [exact B|]. apply anc_lt. replace (d + (h - d)) with h by lia. exact A. Qed.
Lemma inr_root h j : inr h h j -> j = 0.
Proof. intros [_ B]. rewrite Nat.sub_diag, Nat.pow_0_r in B. lia. Qed.
Lemma inr_leaf h i : inr h 0 i <-> i < 2 ^ h.
Proof. unfold inr. rewrite Nat.sub_0_r. lia. Qed.
Lemma inr_below h k j k0 j0 : inr h k j -> below k0 j0 k j -> inr h k0 j0.
Proof.
  intros [A B] [C <-]. split; [lia|].
  apply Nat.lt_le_trans with ((j0 / 2 ^ (k - k0) + 1) * 2 ^ (k - k0)).
  - pose proof (pow2_pos (k - k0)). pose proof (Nat.div_mod j0 (2 ^ (k - k0)) ltac:(lia)).
    pose proof (Nat.mod_upper_bound j0 (2 ^ (k - k0)) ltac:(lia)). nia.
  - replace (h - k0) with ((h - k) + (k - k0)) by lia. rewrite Nat.pow_add_r.
    apply Nat.mul_le_mono_r. lia.
Qed.

(** No inner node holds an empty list of versions, and every leaf holds one key. *)
Record wfk (t : tree) : Prop := Wfk {
  wf_leaf : forall i l, leafv t i = Some l -> exists p, l_pk l = SKey p;
  wf_inner : forall k j, innerv t k j <> Some []
}.

Lemma nkey_leaf t i l p : leafv t i = Some l -> l_pk l = SKey p -> nkey t 0 i = Some p.
Proof. intros A B. cbn [nkey]. rewrite A. destruct l; cbn in *; subst. reflexivity. Qed.
Lemma nkey_leaf_inv t i p : nkey t 0 i = Some p -> exists id, leafv t i = Some (LeafNode id (SKey p)).
Proof.
  cbn [nkey]. destruct (leafv t i) as [[id [q|]]|]; intros E; try discriminate.
  injection E as ->. eauto.
Qed.
Lemma nkey_inner t k j p : nkey t (S k) j = Some p <-> exists v, innerv t k j = Some [v] /\ v_pk v = p.
Proof.
  cbn [nkey]. split.
  - destruct (innerv t k j) as [[|v [|]]|]; intros E; try discriminate. injection E as <-. eauto.
  - intros (v & -> & <-). reflexivity.
Qed.

Lemma should_skip_inner t h k j : shape t h -> inr h (S k) j -> innerv t k j <> Some [] ->
  should_skip t (node (S k) j) = Ok (negb (bool_decide (is_Some (nkey t (S k) j)))).
Proof.
  intros S [A B] W. unfold should_skip. rewrite is_leaf_node_S.
  rewrite (inner_at_shape _ _ _ _ S) by assumption. cbn [rbind nkey].
  destruct (innerv t k j) as [[|v [|v' s]]|].
  - contradiction.
  - rewrite bool_decide_true by eauto. reflexivity.
  - rewrite bool_decide_false by (intros [? ?]; discriminate). reflexivity.
  - rewrite bool_decide_false by (intros [? ?]; discriminate). reflexivity.
Qed.
Lemma should_skip_nkey t h k j : shape t h -> wfk t -> inr h k j ->
  should_skip t (node k j) = Ok (negb (bool_decide (is_Some (nkey t k j)))).
Proof.
  intros S W I. destruct k as [|k].
  - unfold should_skip, is_blank. rewrite !is_leaf_node_0, leaf_from_node.
    rewrite (leaf_at_shape _ _ _ S) by (apply inr_leaf; exact I). cbn [rbind nkey].
    destruct (leafv t j) as [[id nk]|] eqn:E.
    + destruct (wf_leaf _ W _ _ E) as [p Hp]. cbn in Hp. subst nk.
      rewrite !bool_decide_true by eauto. reflexivity.
    + rewrite !bool_decide_false by (intros [? ?]; discriminate). reflexivity.
  - eapply should_skip_inner; [exact S|exact I|apply W].
Qed.

Lemma node_key_inner t h k j : shape t h -> inr h (S k) j ->
  node_key_for_index t (node (S k) j) =
    match innerv t k j with Some s => store_node_key s | None => Err EShareKeyNotFound end.
Proof.
  intros S [A B]. unfold node_key_for_index. rewrite is_leaf_node_S.
  rewrite (inner_at_shape _ _ _ _ S) by assumption. cbn [rbind].
  destruct (innerv t k j); reflexivity.
Qed.
Lemma node_key_nkey t h k j p : shape t h -> inr h k j -> nkey t k j = Some p ->
  node_key_for_index t (node k j) = Ok (SKey p).
Proof.
  intros S I E. destruct k as [|k].
  - unfold node_key_for_index. rewrite is_leaf_node_0, leaf_from_node.
    rewrite (leaf_at_shape _ _ _ S) by (apply inr_leaf; exact I). cbn [rbind].
    apply nkey_leaf_inv in E as [id ->]. reflexivity.
  - rewrite (node_key_inner _ _ _ _ S I). apply nkey_inner in E as (v & -> & <-). reflexivity.
Qed.

(** ** Resolutions *)
Fixpoint resn (t : tree) (k j : nat) : list (nat * nat) :=
  match nkey t k j with
  | Some _ => [(k, j)]
  | None => match k with
            | 0 => []
            | S k' => resn t k' (2 * j) ++ resn t k' (2 * j + 1)
            end
  end.
Definition nidx (n : nat * nat) : nat := node n.1 n.2.

Lemma resolution_resn fuel t h k j : shape t h -> wfk t -> inr h k j -> k <= fuel ->
  resolution fuel t (node k j) = Ok (map nidx (resn t k j)).
Proof.
  intros S W. revert fuel j; induction k as [|k IH]; intros fuel j I F.
  - destruct fuel; cbn [resolution resn];
      rewrite (should_skip_nkey _ _ _ _ S W I); cbn [rbind];
      (destruct (nkey t 0 j) as [p|]; [rewrite bool_decide_true by eauto; reflexivity|]);
      rewrite bool_decide_false by (intros [? ?]; discriminate); cbn [negb];
      rewrite is_leaf_node_0; reflexivity.
  - destruct fuel as [|f]; [lia|]. cbn [resolution resn].
    rewrite (should_skip_nkey _ _ _ _ S W I); cbn [rbind].
    destruct (nkey t (Datatypes.S k) j) as [p|]; [rewrite bool_decide_true by eauto; reflexivity|].
    rewrite bool_decide_false by (intros [? ?]; discriminate); cbn [negb].
    rewrite is_leaf_node_S, left_node, right_node.
    rewrite IH by (try lia; apply inr_child_l; exact I). cbn [rbind].
    rewrite IH by (try lia; apply inr_child_r; exact I). cbn [rbind].
    rewrite map_app. reflexivity.
Qed.

Lemma resn_below t k j k0 j0 : (k0, j0) ∈ resn t k j -> below k0 j0 k j.
Proof.
  revert j; induction k as [|k IH]; intros j; cbn [resn].
  - destruct (nkey t 0 j); intros E; [|inversion E].
    apply elem_of_list_singleton in E. injection E as -> ->. apply below_refl.
  - destruct (nkey t (S k) j).
    + intros E. apply elem_of_list_singleton in E. injection E as -> ->. apply below_refl.
    + intros E. apply elem_of_app in E as [E|E]; apply IH in E; eapply below_trans; eauto.
      * apply below_child_l.
      * apply below_child_r.
Qed.
Lemma resn_key t k j k0 j0 : (k0, j0) ∈ resn t k j -> is_Some (nkey t k0 j0).
Proof.
  revert j; induction k as [|k IH]; intros j; cbn [resn].
  - destruct (nkey t 0 j) eqn:K; intros E; [|inversion E].
    apply elem_of_list_singleton in E. injection E as -> ->. eauto.
  - destruct (nkey t (S k) j) eqn:K.
    + intros E. apply elem_of_list_singleton in E. injection E as -> ->. eauto.
    + intros E. apply elem_of_app in E as [E|E]; eapply IH; eauto.
Qed.
Lemma below_level_eq k j j' : below k j' k j -> j' = j.
Proof. intros [_ E]. rewrite Nat.sub_diag, Nat.pow_0_r, Nat.div_1_r in E. exact E. Qed.
Lemma below_anc_eq k0 j0 k j : below k0 j0 k j <-> k0 <= k /\ anc j0 (k - k0) = j.
Proof. reflexivity. Qed.
Lemma below_mid k0 j0 k1 j1 k j : below k0 j0 k j -> below k0 j0 k1 j1 -> k1 <= k -> below k1 j1 k j.
Proof.
  intros [A B] [C D] E. split; [exact E|].
  change (anc j1 (k - k1) = j). rewrite <- D. change (anc (anc j0 (k1 - k0)) (k - k1) = j).
  rewrite anc_anc, <- B. unfold anc. do 2 f_equal. lia.
Qed.

Lemma resn_spec t k j k0 j0 : (k0, j0) ∈ resn t k j <-> in_resolution t k j k0 j0.
Proof.
  split.
  - intros E. split; [eapply resn_below; eauto|]. split; [eapply resn_key; eauto|].
    revert j E; induction k as [|k IH]; intros j E k1 j1 L B1 B2.
    + destruct B2 as [? _]. lia.
    + cbn [resn] in E. destruct (nkey t (S k) j) eqn:K.
      * apply elem_of_list_singleton in E. injection E as -> ->. destruct B2 as [? _]. lia.
      * destruct (below_S_inv _ _ _ _ B2) as [[-> ->]|_]; [exact K|].
        destruct (decide (k1 = S k)) as [->|N].
        { apply below_level_eq in B2. subst. exact K. }
        apply elem_of_app in E as [E|E].
        -- apply (IH _ E); [lia|exact B1|]. pose proof (resn_below _ _ _ _ _ E).
           eapply below_mid; eauto. destruct B2; lia.
        -- apply (IH _ E); [lia|exact B1|]. pose proof (resn_below _ _ _ _ _ E).
           eapply below_mid; eauto. destruct B2; lia.
  - intros (B & [p Hp] & Hi). revert j B Hi; induction k as [|k IH]; intros j B Hi.
    + assert (k0 = 0) as -> by (destruct B; lia). apply below_level_eq in B as ->.
      cbn [resn]. rewrite Hp. left.
    + cbn [resn]. destruct (below_S_inv _ _ _ _ B) as [[-> ->]|B'].
      * rewrite Hp. left.
      * assert (L : k0 < S k) by (destruct B' as [[? _]|[? _]]; lia).
        rewrite (Hi (S k) j L B (below_refl _ _)).
        apply elem_of_app. destruct B' as [B'|B']; [left|right]; apply IH; try exact B';
          intros k1 j1 L1 B1 B2; apply (Hi k1 j1 L1 B1); eapply below_trans; eauto;
          apply below_child_l || apply below_child_r.
Qed.

Lemma resn_ext t t' k j :
  (forall k0 j0, below k0 j0 k j -> nkey t' k0 j0 = nkey t k0 j0) -> resn t' k j = resn t k j.
Proof.
  revert j; induction k as [|k IH]; intros j H; cbn [resn]; rewrite (H _ _ (below_refl _ _)).
  - reflexivity.
  - rewrite !IH; [reflexivity| |];
      intros k0 j0 B; apply H; eapply below_trans; eauto; apply below_child_l || apply below_child_r.
Qed.

Lemma below_disjoint k0 j0 k j j' : below k0 j0 k j -> below k0 j0 k j' -> j = j'.
Proof. intros [_ A] [_ B]. congruence. Qed.

Lemma resn_nodup t k j : NoDup (resn t k j).
Proof.
  revert j; induction k as [|k IH]; intros j; cbn [resn]; destruct (nkey t _ j);
    try apply NoDup_singleton; try apply NoDup_nil_2.
  apply NoDup_app. split; [apply IH|]. split; [|apply IH].
  intros [k0 j0] A B. apply resn_below in A, B.
  pose proof (below_disjoint _ _ _ _ _ A B). lia.
Qed.

(** ** Encrypting for a resolution *)
Definition rkey (t : tree) (n : nat * nat) : share_key := default 0 (nkey t n.1 n.2).
Definition enc_entries (t : tree) (csk npk : nat) (r : list (nat * nat)) (m : gmap nat enc_secret) : gmap nat enc_secret :=
  foldl (fun m n => <[nidx n := encrypt_secret npk csk (rkey t n)]> m) m r.

Lemma encrypt_for_spec t h cidx csk npk r : shape t h ->
  (forall n, n ∈ r -> inr h n.1 n.2 /\ is_Some (nkey t n.1 n.2)) -> forall used m,
  encrypt_for t cidx csk npk used (map nidx r) m =
    Ok (enc_entries t csk npk r
          (if used then m else match r with
                               | [] => m
                               | n :: _ => <[cidx := encrypt_secret npk csk (rkey t n)]> m
                               end)).
Proof.
  intros S. induction r as [|n r IH]; intros H used m; cbn [map encrypt_for].
  - destruct used; reflexivity.
  - destruct (H n ltac:(left)) as [I [p Hp]].
    unfold nidx at 1. rewrite (node_key_nkey _ _ _ _ _ S I Hp). cbn [rbind].
    rewrite IH by (intros; apply H; right; assumption).
    cbn [enc_entries foldl]. unfold rkey. rewrite Hp. cbn [default]. destruct used; reflexivity.
Qed.

Lemma nidx_inj a b : nidx a = nidx b -> a = b.
Proof. destruct a, b. unfold nidx. cbn. intros E. apply node_inj in E as [-> ->]. reflexivity. Qed.

Lemma enc_entries_lookup t csk npk r m x :
  enc_entries t csk npk r m !! x =
    match list_find (fun n => nidx n = x) r with
    | Some (_, n) => Some (encrypt_secret npk csk (rkey t n))
    | None => m !! x
    end.
Proof.
  revert m; induction r as [|n r IH]; intros m; cbn [enc_entries foldl list_find]; [reflexivity|].
  change (enc_entries t csk npk r (<[nidx n := encrypt_secret npk csk (rkey t n)]> m) !! x =
    match (if decide (nidx n = x) then Some (0, n) else prod_map S id <$> list_find (fun n => nidx n = x) r) with
    | Some (_, n0) => Some (encrypt_secret npk csk (rkey t n0))
    | None => m !! x
    end).
  rewrite IH. destruct (decide (nidx n = x)) as [<-|N].
  - destruct (list_find _ r) as [[i n']|] eqn:F.
    + apply list_find_Some in F as (_ & E & _). apply nidx_inj in E as ->. reflexivity.
    + apply lookup_insert.
  - destruct (list_find _ r) as [[i n']|]; [reflexivity|]. cbn. apply lookup_insert_ne. exact N.
Qed.
Lemma enc_entries_in t csk npk r m n : n ∈ r ->
  enc_entries t csk npk r m !! nidx n = Some (encrypt_secret npk csk (rkey t n)).
Proof.
  intros E. rewrite enc_entries_lookup.
  destruct (list_find (fun n' => nidx n' = nidx n) r) as [[i n']|] eqn:F.
  - apply list_find_Some in F as (_ & E' & _). apply nidx_inj in E' as ->. reflexivity.
  - exfalso. apply list_find_None in F. rewrite Forall_forall in F. exact (F n E eq_refl).
Qed.
Lemma enc_entries_notin t csk npk r m x : (forall n, n ∈ r -> nidx n <> x) ->
  enc_entries t csk npk r m !! x = m !! x.
Proof.
  intros H. rewrite enc_entries_lookup.
  destruct (list_find (fun n' => nidx n' = x) r) as [[i n']|] eqn:F; [|reflexivity].
  apply list_find_Some in F as (L & E & _). exfalso. eapply H; [|exact E]. eapply elem_of_list_lookup_2; eauto.
Qed.

(** The entries of the version that an update from child [(k, j)] with key [cpk] writes
    into its parent. *)
Definition new_entries (t : tree) (k j cpk npk eph : nat) : gmap nat enc_secret :=
  match resn t k (sib j) with
  | [] => {[ node k j := encrypt_secret npk cpk eph ]}
  | n :: _ => enc_entries t cpk npk (resn t k (sib j)) {[ node k j := encrypt_secret npk cpk (rkey t n) ]}
  end.

(** The extra key pair, needed only when the sibling resolution is empty. *)
Definition pick_eph (r : list (nat * nat)) (rng : list nat) : option (nat * list nat) :=
  match r with
  | [] => match rng with [] => None | e :: rng' => Some (e, rng') end
  | _ => Some (0, rng)
  end.

Lemma new_secret_store_spec t h k j cpk npk rng : shape t h -> wfk t -> inr h k j -> k < h ->
  new_secret_store t (node k j) cpk cpk npk npk rng =
    match pick_eph (resn t k (sib j)) rng with
    | None => OutOfFuel
    | Some (e, rng') => Ok ([Version npk (new_entries t k j cpk npk e) cpk], rng')
    end.
Proof.
  intros S W I L. unfold new_secret_store, new_entries. cbv zeta. rewrite sibling_sib, level_node.
  pose proof (inr_sib _ _ _ I L) as Is.
  rewrite (resolution_resn _ _ _ _ _ S W Is) by lia. cbn [rbind].
  assert (H : forall n, n ∈ resn t k (sib j) -> inr h n.1 n.2 /\ is_Some (nkey t n.1 n.2)).
  { intros [k0 j0] E. split; [|eapply resn_key; eauto].
    eapply inr_below; [exact Is|]. eapply resn_below; eauto. }
  destruct (resn t k (sib j)) as [|n r]; cbn [map].
  - destruct rng; reflexivity.
  - change (nidx n :: map nidx r) with (map nidx (n :: r)).
    rewrite (encrypt_for_spec t h (node k j) cpk npk (n :: r) S H). reflexivity.
Qed.

(** ** The versions written by an update *)
Fixpoint enc_versions (t : tree) (d k j cpk : nat) (rng : list nat) : option (list version * list nat) :=
  match d with
  | 0 => Some ([], rng)
  | S d' =>
      match rng with
      | [] => None
      | npk :: rng1 =>
          match pick_eph (resn t k (sib j)) rng1 with
          | None => None
          | Some (e, rng2) =>
              match enc_versions t d' (S k) (j / 2) npk rng2 with
              | None => None
              | Some (vs, rng3) => Some (Version npk (new_entries t k j cpk npk e) cpk :: vs, rng3)
              end
          end
      end
  end.

Lemma below_sib_not_anc k0 j0 k j d : below k0 j0 (k + d) (sib (anc j d)) ->
  k <= k0 -> j0 <> anc j (k0 - k).
Proof.
  intros [A B] L E. subst j0. change (anc (anc j (k0 - k)) (k + d - k0) = sib (anc j d)) in B.
  rewrite anc_anc in B. replace (k0 - k + (k + d - k0)) with d in B by lia.
  symmetry in B. exact (sib_neq _ B).
Qed.

Lemma new_entries_ext t t' k j cpk npk e :
  (forall k0 j0, below k0 j0 k (sib j) -> nkey t' k0 j0 = nkey t k0 j0) ->
  new_entries t' k j cpk npk e = new_entries t k j cpk npk e.
Proof.
  intros H0.
  assert (R : resn t' k (sib j) = resn t k (sib j)) by (apply resn_ext; exact H0).
  assert (K : forall n, n ∈ resn t k (sib j) -> rkey t' n = rkey t n).
  { intros [k0 j0] E. unfold rkey. cbn [fst snd]. f_equal. apply H0. eapply resn_below; eauto. }
  unfold new_entries. rewrite R. destruct (resn t k (sib j)) as [|n r]; [reflexivity|].
  apply map_eq. intros x. rewrite !enc_entries_lookup.
  destruct (list_find _ (n :: r)) as [[i n']|] eqn:F.
  - apply list_find_Some in F as (L & _). rewrite K; [reflexivity|]. eapply elem_of_list_lookup_2; eauto.
  - rewrite K by left. reflexivity.
Qed.

(** [enc_versions] only looks below the siblings of the path. *)
Lemma enc_versions_ext t t' d k j cpk rng :
  (forall d' k0 j0, d' < d -> below k0 j0 (k + d') (sib (anc j d')) -> nkey t' k0 j0 = nkey t k0 j0) ->
  enc_versions t' d k j cpk rng = enc_versions t d k j cpk rng.
Proof.
  revert k j cpk rng; induction d as [|d IH]; intros k j cpk rng H; [reflexivity|].
  cbn [enc_versions].
  assert (H0 : forall k0 j0, below k0 j0 k (sib j) -> nkey t' k0 j0 = nkey t k0 j0).
  { intros k0 j0 B. apply (H 0 k0 j0 ltac:(lia)). rewrite anc_0, Nat.add_0_r. exact B. }
  assert (R : resn t' k (sib j) = resn t k (sib j)) by (apply resn_ext; exact H0).
  rewrite R. destruct rng as [|npk rng1]; [reflexivity|].
  destruct (pick_eph (resn t k (sib j)) rng1) as [[e rng2]|]; [|reflexivity].
  rewrite (new_entries_ext t t') by exact H0. rewrite IH; [reflexivity|].
  intros d' k0 j0 L B. apply (H (S d') k0 j0 ltac:(lia)).
  rewrite anc_S. replace (k + S d') with (S k + d') by lia. exact B.
Qed.

(** The tree with the versions [vs] on the path above [(k, j)]. *)
Fixpoint overlay (t : tree) (k j : nat) (vs : list version) : tree :=
  match vs with
  | [] => t
  | v :: vs' => overlay (set_inner t (<[node k (j / 2) := Some [v]]> (t_inner t))) (S k) (j / 2) vs'
  end.
Lemma overlay_same_outer t k j vs : same_outer t (overlay t k j vs).
Proof.
  revert t k j; induction vs as [|v vs IH]; intros t k j; cbn [overlay]; [apply same_outer_refl|].
  eapply same_outer_trans; [apply same_outer_set_inner|apply IH].
Qed.
Lemma overlay_innerv t h k j vs k0 j0 : shape t h -> inr h k j -> k + length vs <= h ->
  innerv (overlay t k j vs) k0 j0 =
    if decide (k <= k0 < k + length vs /\ j0 = anc j (S k0 - k)) then (fun v => [v]) <$> vs !! (k0 - k)
    else innerv t k0 j0.
Proof.
  revert t k j; induction vs as [|v vs IH]; intros t k j S I L; cbn [overlay length] in *.
  - destruct (decide _); [lia|reflexivity].
  - pose proof (inr_parent _ _ _ I ltac:(lia)) as Ip.
    assert (B : node k (j / 2) < length (t_inner t)).
    { rewrite (sh_inner _ _ S). destruct Ip. apply inner_bound; assumption. }
    rewrite IH; [|eapply same_outer_shape; [apply same_outer_set_inner|exact S]|exact Ip|lia].
    rewrite innerv_write by exact B.
    destruct (decide (k0 = k /\ j0 = j / 2)) as [[-> ->]|N].
    + destruct (decide _); [lia|]. destruct (decide _) as [_|N].
      * rewrite Nat.sub_diag. reflexivity.
      * exfalso. apply N. split; [lia|]. replace (Datatypes.S k - k) with 1 by lia. symmetry. apply anc_1.
    + destruct (decide (Datatypes.S k <= k0 < _ /\ _)) as [[A ->]|N1], (decide (k <= k0 < _ /\ _)) as [[A' E]|N2].
      * replace (k0 - k) with (Datatypes.S (k0 - Datatypes.S k)) by lia. reflexivity.
      * exfalso. apply N2. split; [lia|]. rewrite <- anc_S. f_equal; lia.
      * exfalso. destruct (decide (k0 = k)) as [->|].
        -- apply N. split; [reflexivity|]. rewrite E. replace (Datatypes.S k - k) with 1 by lia. apply anc_1.
        -- apply N1. split; [lia|]. rewrite E, <- anc_S. f_equal; lia.
      * reflexivity.
Qed.

(** Keys held by an inner node. *)
Definition ikeys (t : tree) (k j : nat) : list share_key := match innerv t k j with Some s => map v_pk s | None => [] end.
Lemma store_keys s : s <> [] -> (let! k := store_node_key s in Ok (nk_keys k)) = Ok (map v_pk s).
Proof. unfold store_node_key. destruct s as [|v [|v' s]]; [contradiction| |]; reflexivity. Qed.

(** Indices of the nodes above [(k, j)], and the keys they hold. *)
Definition above (k j d : nat) : list (nat * nat) := map (fun i => (k + i, anc j (S i))) (seq 0 d).
Lemma above_S k j d : above k j (S d) = (k, j / 2) :: above (S k) (j / 2) d.
Proof.
  unfold above. cbn [seq map]. rewrite anc_1, Nat.add_0_r. f_equal.
  rewrite <- seq_shift, map_map. apply map_ext. intros i. rewrite (anc_S j). f_equal. lia.
Qed.
Lemma above_length k j d : length (above k j d) = d.
Proof. unfold above. rewrite map_length, seq_length. reflexivity. Qed.

Definition path_of (k j : nat) (vs : list version) : list (nat * store) :=
  zip_with (fun n v => (nidx n, [v])) (above k j (length vs)) vs.
Definition path_sks (vs : list version) (sks : sk_map) : sk_map :=
  foldl (fun m v => <[v_pk v := v_pk v]> m) sks vs.
Definition last_pk (cpk : nat) (vs : list version) : nat := foldl (fun _ v => v_pk v) cpk vs.

Lemma enc_versions_length t d k j cpk rng vs rng' :
  enc_versions t d k j cpk rng = Some (vs, rng') -> length vs = d.
Proof.
  revert k j cpk rng vs; induction d as [|d IH]; intros k j cpk rng vs E; cbn [enc_versions] in E.
  - injection E as <- <-. reflexivity.
  - destruct rng as [|npk rng1]; [discriminate|].
    destruct (pick_eph (resn t k (sib j)) rng1) as [[e rng2]|]; [|discriminate].
    destruct (enc_versions t d (S k) (j / 2) npk rng2) as [[vs' rng3]|] eqn:E'; [|discriminate].
    injection E as <- <-. cbn. f_equal. eapply IH; eauto.
Qed.

Lemma encrypt_path_loop_spec fuel t h k j cpk path removed sks rng :
  shape t h -> wfk t -> inr h k j -> h - k <= fuel ->
  encrypt_path_loop fuel t (node k j) cpk cpk path removed sks rng =
    match enc_versions t (h - k) k j cpk rng with
    | None => OutOfFuel
    | Some (vs, rng') =>
        Ok (overlay t k j vs, last_pk cpk vs, path ++ path_of k j vs,
            removed ++ concat (map (fun n => ikeys t n.1 n.2) (above k j (h - k))),
            path_sks vs sks, rng')
    end.
Proof.
  revert t k j cpk path removed sks rng; induction fuel as [|f IH];
    intros t k j cpk path removed sks rng S W I F.
  - assert (k = h) as -> by (destruct I; lia). rewrite (inr_root _ _ I) in *.
    cbn [encrypt_path_loop]. rewrite (is_root_node _ _ _ _ S), bool_decide_true by auto.
    rewrite Nat.sub_diag. cbn. rewrite !app_nil_r. reflexivity.
  - cbn [encrypt_path_loop]. rewrite (is_root_node _ _ _ _ S).
    destruct (decide (k = h)) as [->|N].
    { rewrite (inr_root _ _ I), bool_decide_true by auto.
      rewrite Nat.sub_diag. cbn. rewrite !app_nil_r. reflexivity. }
    rewrite bool_decide_false by (intros [? _]; contradiction).
    assert (L : k < h) by (destruct I; lia).
    pose proof (inr_parent _ _ _ I L) as Ip.
    rewrite parent_node. rewrite (inner_at_shape _ _ _ _ S) by apply Ip. cbn [rbind].
    assert (EK : match innerv t k (j / 2) with
                 | Some s => let! k0 := store_node_key s in Ok (nk_keys k0)
                 | None => Ok []
                 end = Ok (ikeys t k (j / 2))).
    { unfold ikeys. destruct (innerv t k (j / 2)) as [s|] eqn:E; [|reflexivity].
      apply store_keys. intros ->. exact (wf_inner _ W _ _ E). }
    rewrite EK. cbn [rbind]. clear EK.
    replace (h - k) with (Datatypes.S (h - Datatypes.S k)) by lia. cbn [enc_versions].
    destruct rng as [|npk rng1]; [reflexivity|]. cbn [generate rbind]. unfold pub.
    rewrite (new_secret_store_spec _ _ _ _ _ _ _ S W I L).
    destruct (pick_eph (resn t k (sib j)) rng1) as [[e rng2]|]; [|reflexivity]. cbn [rbind].
    set (v := Version npk (new_entries t k j cpk npk e) cpk).
    assert (B : node k (j / 2) < length (t_inner t)).
    { rewrite (sh_inner _ _ S). destruct Ip. apply inner_bound; assumption. }
    rewrite write_inner_ok by exact B. cbn [rbind].
    set (t1 := set_inner t _).
    assert (SO : same_outer t t1) by apply same_outer_set_inner.
    assert (V1 : forall k0 j0, innerv t1 k0 j0 = if decide (k0 = k /\ j0 = j / 2) then Some [v] else innerv t k0 j0).
    { intros. unfold t1. apply innerv_write. exact B. }
    assert (W1 : wfk t1).
    { split.
      - intros i l. rewrite (same_outer_leafv _ _ _ SO). apply W.
      - intros k0 j0. rewrite V1. destruct (decide _); [discriminate|]. apply W. }
    rewrite (IH t1) by (try exact W1; try exact Ip; try lia; eapply same_outer_shape; eauto).
    assert (NK : forall k0 j0, ~ (k0 = Datatypes.S k /\ j0 = j / 2) -> nkey t1 k0 j0 = nkey t k0 j0).
    { intros k0 j0 H. destruct k0 as [|k0]; cbn [nkey].
      - rewrite (same_outer_leafv _ _ _ SO). reflexivity.
      - rewrite V1. destruct (decide _) as [[-> ->]|]; [exfalso; auto|reflexivity]. }
    assert (EE : enc_versions t1 (h - Datatypes.S k) (Datatypes.S k) (j / 2) npk rng2 =
      enc_versions t (h - Datatypes.S k) (Datatypes.S k) (j / 2) npk rng2).
    { apply enc_versions_ext. intros d' k0 j0 L' B'. apply NK. intros [-> ->].
      eapply (below_sib_not_anc (Datatypes.S k) (j / 2) (Datatypes.S k) (j / 2) d'); [exact B'|lia|].
      rewrite Nat.sub_diag, anc_0. reflexivity. }
    rewrite EE. clear EE. destruct (enc_versions t _ _ _ npk rng2) as [[vs rng3]|] eqn:EV; [|reflexivity].
    f_equal. rewrite inner_from_node.
    assert (EI : map (fun n => ikeys t1 n.1 n.2) (above (Datatypes.S k) (j / 2) (h - Datatypes.S k))
       = map (fun n => ikeys t n.1 n.2) (above (Datatypes.S k) (j / 2) (h - Datatypes.S k))).
    { unfold above. rewrite !map_map. apply map_ext. intros i. cbn [fst snd]. unfold ikeys. rewrite V1.
      destruct (decide _); [lia|reflexivity]. }
    rewrite EI, above_S. cbn [map concat fst snd]. rewrite <- app_assoc. unfold path_of. cbn [length].
    rewrite above_S. cbn [zip_with]. rewrite <- app_assoc. reflexivity.
Qed.

Lemma enc_versions_total t d k j cpk rng : 2 * d <= length rng -> is_Some (enc_versions t d k j cpk rng).
Proof.
  revert k j cpk rng; induction d as [|d IH]; intros k j cpk rng L; cbn [enc_versions]; [eauto|].
  destruct rng as [|npk [|e rng]]; cbn in L; try lia.
  destruct (resn t k (sib j)); cbn [pick_eph].
  - destruct (IH (S k) (j / 2) npk rng ltac:(lia)) as [[vs r] ->]. eauto.
  - destruct (IH (S k) (j / 2) npk (e :: rng) ltac:(cbn; lia)) as [[vs r'] ->]. eauto.
Qed.

Lemma pick_eph_sub r rng e rng' : pick_eph r rng = Some (e, rng') ->
  (r = [] /\ rng = e :: rng') \/ (r <> [] /\ rng = rng').
Proof.
  destruct r; cbn [pick_eph].
  - destruct rng; [discriminate|]. intros E. injection E as -> ->. auto.
  - intros E. injection E as <- <-. right. split; [discriminate|reflexivity].
Qed.

(** The new keys are consumed from the random generator, each once. *)
Lemma enc_versions_rng t d k j cpk rng vs rng' :
  enc_versions t d k j cpk rng = Some (vs, rng') ->
  (forall v, v ∈ vs -> v_pk v ∈ rng) /\ (NoDup rng -> NoDup (map v_pk vs)).
Proof.
  revert k j cpk rng vs; induction d as [|d IH]; intros k j cpk rng vs E; cbn [enc_versions] in E.
  - injection E as <- <-. split; [intros v Hv; inversion Hv|intros; apply NoDup_nil_2].
  - destruct rng as [|npk rng1]; [discriminate|].
    destruct (pick_eph (resn t k (sib j)) rng1) as [[e rng2]|] eqn:P; [|discriminate].
    destruct (enc_versions t d (S k) (j / 2) npk rng2) as [[vs' rng3]|] eqn:E'; [|discriminate].
    injection E as <- <-. destruct (IH _ _ _ _ _ E') as [A B].
    assert (Sub : forall x, x ∈ rng2 -> x ∈ rng1).
    { destruct (pick_eph_sub _ _ _ _ P) as [[_ ->]|[_ ->]]; [intros; right; assumption|auto]. }
    split.
    + intros v Hv. apply elem_of_cons in Hv as [->|Hv]; [left|]. right. apply Sub, A, Hv.
    + intros N. apply NoDup_cons in N as [N1 N2]. cbn [map v_pk]. apply NoDup_cons. split.
      * intros Q. apply elem_of_list_fmap in Q as (v & -> & Hv). apply N1, Sub, A, Hv.
      * apply B. destruct (pick_eph_sub _ _ _ _ P) as [[_ ->]|[_ ->]]; [apply NoDup_cons in N2; tauto|exact N2].
Qed.

Lemma enc_versions_at t d k j cpk rng vs rng' d' v :
  enc_versions t d k j cpk rng = Some (vs, rng') -> vs !! d' = Some v ->
  exists e, v = Version (v_pk v) (new_entries t (k + d') (anc j d') (v_encrypter v) (v_pk v) e) (v_encrypter v) /\
    (match d' with 0 => v_encrypter v = cpk | S d'' => exists u, vs !! d'' = Some u /\ v_encrypter v = v_pk u end) /\
    (resn t (k + d') (sib (anc j d')) = [] -> e ∈ rng /\ (NoDup rng -> e ∉ map v_pk vs)).
Proof.
  revert k j cpk rng vs d'; induction d as [|d IH]; intros k j cpk rng vs d' E L; cbn [enc_versions] in E.
  - injection E as <- <-. discriminate.
  - destruct rng as [|npk rng1]; [discriminate|].
    destruct (pick_eph (resn t k (sib j)) rng1) as [[e rng2]|] eqn:P; [|discriminate].
    destruct (enc_versions t d (S k) (j / 2) npk rng2) as [[vs' rng3]|] eqn:E'; [|discriminate].
    injection E as <- <-. pose proof (enc_versions_rng _ _ _ _ _ _ _ _ E') as [Sub _]. destruct d' as [|d'].
    + injection L as <-. exists e. rewrite anc_0, Nat.add_0_r. cbn [v_pk v_sk v_encrypter]. split; [reflexivity|].
      split; [reflexivity|]. intros R. destruct (pick_eph_sub _ _ _ _ P) as [[_ ->]|[? _]]; [|contradiction].
      split; [right; left|]. intros N. apply NoDup_cons in N as [N1 N2]. apply NoDup_cons in N2 as [N2 _].
      cbn [map v_pk]. rewrite not_elem_of_cons. split.
      * intros ->. apply N1. left.
      * intros Q. apply elem_of_list_fmap in Q as (v & -> & Hv). apply N2, Sub, Hv.
    + cbn in L. destruct (IH _ _ _ _ _ _ E' L) as (e' & A & B & C). exists e'.
      rewrite anc_S. replace (k + S d') with (S k + d') by lia. split; [exact A|]. split.
      * destruct d' as [|d']; [|exact B]. cbn. eauto.
      * intros R. destruct (C R) as [C1 C2].
        assert (Sub2 : forall x, x ∈ rng2 -> x ∈ rng1).
        { destruct (pick_eph_sub _ _ _ _ P) as [[_ ->]|[_ ->]]; [intros; right; assumption|auto]. }
        split; [right; apply Sub2, C1|]. intros N. apply NoDup_cons in N as [N1 N2].
        cbn [map v_pk]. rewrite not_elem_of_cons. split.
        -- intros ->. apply N1, Sub2, C1.
        -- apply C2. destruct (pick_eph_sub _ _ _ _ P) as [[_ ->]|[_ ->]]; [apply NoDup_cons in N2; tauto|exact N2].
Qed.
