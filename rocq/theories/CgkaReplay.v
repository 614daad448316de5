(** Replay as a function of the operations: it does not depend on the replica, on the
    iteration order of hash sets or on how the operations arrived. *)
From Coq Require Import Arith Lia.
From stdpp Require Import base list gmap relations.
From Verif Require Import ResModel KeysModel TreeMathModel TreeModel OpsModel OpsSpec OpsInv OpsProofs OpsEpochs OpsPropsProofs OpsExtend
  CgkaModel CgkaSpec CgkaProofs.

(** ** Blanking several paths: order does not matter *)
Definition blank_list {A} (is : list nat) (l : list (option A)) : list (option A) := foldl (fun l i => <[i := None]> l) l is.

Lemma blank_list_length {A} is : forall l : list (option A), length (blank_list is l) = length l.
Proof. induction is as [|i is IH]; intros l; cbn; [reflexivity|]. fold (blank_list is (<[i := None]> l)). rewrite IH, insert_length. reflexivity. Qed.
Lemma blank_list_app {A} is js (l : list (option A)) : blank_list (is ++ js) l = blank_list js (blank_list is l).
Proof. apply foldl_app. Qed.
Lemma blank_list_perm {A} is js : Permutation is js -> forall l : list (option A), blank_list is l = blank_list js l.
Proof.
  induction 1 as [|i is js P IH|i j is|is js ks _ IH1 _ IH2]; intros l; cbn.
  - reflexivity.
  - apply IH.
  - f_equal. destruct (decide (i = j)) as [->|N]; [reflexivity|]. apply list_insert_commute. auto.
  - rewrite IH1. apply IH2.
Qed.

Fixpoint blank_idxs (fuel sz x : nat) : option (list nat) :=
  if x =? root sz then Some [inner_from_tree x]
  else match fuel with
       | 0 => None
       | S f => cons (inner_from_tree x) <$> blank_idxs f sz (parent x)
       end.

Lemma blank_path_loop_eq fuel : forall t x t', blank_path_loop fuel t x = Ok t' <->
  exists xs, blank_idxs fuel (t_size t) x = Some xs /\ Forall (fun i => i < length (t_inner t)) xs /\
    t' = set_inner t (blank_list xs (t_inner t)).
Proof.
  induction fuel as [|fuel IH]; intros t x t'; cbn [blank_path_loop blank_idxs]; unfold write_inner, is_root.
  - destruct (Nat.ltb_spec (inner_from_tree x) (length (t_inner t))) as [L|L]; cbn [rbind].
    + destruct (x =? root (t_size t)).
      * split; [intros Q; injection Q as <-; eexists; split; [reflexivity|]; split; [auto|reflexivity]|].
        intros (xs & Q & _ & ->). injection Q as <-. reflexivity.
      * split; [discriminate|]. intros (xs & Q & _). discriminate.
    + split; [discriminate|]. intros (xs & Q & F & _). destruct (x =? root (t_size t)); [|discriminate]. injection Q as <-. inversion F. lia.
  - destruct (Nat.ltb_spec (inner_from_tree x) (length (t_inner t))) as [L|L]; cbn [rbind].
    + destruct (x =? root (t_size t)).
      * split; [intros Q; injection Q as <-; eexists; split; [reflexivity|]; split; [auto|reflexivity]|].
        intros (xs & Q & _ & ->). injection Q as <-. reflexivity.
      * rewrite IH. cbn [t_size t_inner set_inner]. rewrite insert_length. split.
        -- intros (xs & -> & F & ->). eexists. split; [reflexivity|]. split; [constructor; assumption|reflexivity].
        -- intros (xs & Q & F & ->). destruct (blank_idxs fuel _ _) as [ys|]; [|discriminate]. injection Q as <-. inversion F; subst. eexists. split; [reflexivity|]. split; [assumption|reflexivity].
    + split; [discriminate|]. intros (xs & Q & F & _). destruct (x =? root (t_size t)); [injection Q as <-; inversion F; lia|].
      destruct (blank_idxs fuel _ _) as [ys|]; [|discriminate]. injection Q as <-. inversion F; lia.
Qed.

Definition leaf_blanks (sz i : nat) : option (list nat) := blank_idxs sz sz (parent (leaf_to_tree i)).
Definition can_blank (t : tree) (i : nat) : Prop :=
  i < length (t_leaves t) /\ exists xs, leaf_blanks (t_size t) i = Some xs /\ Forall (fun i => i < length (t_inner t)) xs.
Definition blanked (t : tree) (is : list nat) : tree :=
  Tree (t_next t) (blank_list is (t_leaves t)) (blank_list (concat (map (fun i => default [] (leaf_blanks (t_size t) i)) is)) (t_inner t)) (t_size t) (t_ids t).

Lemma blank_leaf_and_path_eq t i t' : blank_leaf_and_path t i = Ok t' <-> can_blank t i /\ t' = blanked t [i].
Proof.
  unfold blank_leaf_and_path, write_leaf, can_blank, blanked. cbn [map concat]. rewrite app_nil_r. destruct (Nat.ltb_spec i (length (t_leaves t))) as [L|L]; cbn [rbind].
  - unfold blank_path. rewrite blank_path_loop_eq. cbn [t_size t_inner t_leaves set_leaves]. fold (leaf_blanks (t_size t) i). split.
    + intros (xs & Q & F & ->). rewrite Q. cbn [default]. split; [eauto|reflexivity].
    + intros ((_ & xs & Q & F) & ->). rewrite Q. exists xs. split; [reflexivity|]. split; [exact F|reflexivity].
  - split; [discriminate|]. intros ((A & _) & _). lia.
Qed.

Lemma blanked_blanked t is js : blanked (blanked t is) js = blanked t (is ++ js).
Proof. unfold blanked. cbn. rewrite map_app, concat_app, !blank_list_app. reflexivity. Qed.
Lemma can_blank_blanked t is i : can_blank (blanked t is) i <-> can_blank t i.
Proof. unfold can_blank, blanked. cbn. rewrite !blank_list_length. reflexivity. Qed.

Lemma blank_removed_eq rs : forall t added t' added', blank_removed t rs added = Ok (t', added') <->
  Forall (fun r => can_blank t r.2) rs /\ t' = blanked t (map snd rs) /\ added' = added ∖ list_to_set (map fst rs).
Proof.
  induction rs as [|[id i] rs IH]; intros t added t' added'; cbn [blank_removed map list_to_set].
  - split.
    + intros Q. injection Q as <- <-. split; [constructor|]. split; [destruct t; reflexivity|]. set_solver.
    + intros (_ & -> & ->). unfold blanked. cbn. destruct t; cbn. do 2 f_equal. set_solver.
  - destruct (blank_leaf_and_path t i) as [t1|e| |] eqn:E; cbn [rbind].
    + apply blank_leaf_and_path_eq in E as [C ->]. rewrite IH. split.
      * intros (F & -> & ->). split; [constructor; [exact C|]|].
        -- eapply Forall_impl; [exact F|]. intros r. apply can_blank_blanked.
        -- split; [rewrite blanked_blanked; reflexivity|]. cbn. set_solver.
      * intros (F & -> & ->). inversion F as [|? ? _ F']; subst. split; [eapply Forall_impl; [exact F'|]; intros r; apply can_blank_blanked|].
        split; [rewrite blanked_blanked; reflexivity|]. cbn. set_solver.
    + split; [discriminate|]. intros (F & _). inversion F as [|? ? C _]; subst.
      assert (Q : blank_leaf_and_path t i = Ok (blanked t [i])) by (apply blank_leaf_and_path_eq; auto). congruence.
    + split; [discriminate|]. intros (F & _). inversion F as [|? ? C _]; subst.
      assert (Q : blank_leaf_and_path t i = Ok (blanked t [i])) by (apply blank_leaf_and_path_eq; auto). congruence.
    + split; [discriminate|]. intros (F & _). inversion F as [|? ? C _]; subst.
      assert (Q : blank_leaf_and_path t i = Ok (blanked t [i])) by (apply blank_leaf_and_path_eq; auto). congruence.
Qed.

Lemma blanked_perm t is js : Permutation is js -> blanked t is = blanked t js.
Proof.
  intros P. unfold blanked. rewrite (blank_list_perm is js P). f_equal.
  apply blank_list_perm. rewrite P. reflexivity.
Qed.

Lemma blank_removed_perm t rs rs' added x : Permutation rs rs' ->
  blank_removed t rs added = Ok x -> blank_removed t rs' added = Ok x.
Proof.
  destruct x as [t' added']. rewrite !blank_removed_eq. intros P (F & -> & ->).
  split; [rewrite <- P; exact F|]. split; [apply blanked_perm; rewrite P; reflexivity|].
  apply set_eq. intros x. rewrite !elem_of_difference, !elem_of_list_to_set, P. reflexivity.
Qed.

Lemma sort_leaves_perm t added rs rs' t' : Permutation rs rs' ->
  sort_leaves_and_blank_paths t added rs = Ok t' -> sort_leaves_and_blank_paths t added rs' = Ok t'.
Proof.
  unfold sort_leaves_and_blank_paths. intros P Q. apply rbind_ok in Q as ([t1 a1] & B & Q).
  rewrite (blank_removed_perm _ _ _ _ _ P B). exact Q.
Qed.

(** ** An update: what the author's tree becomes is what applying the operation gives *)
Lemma encrypt_loop_apply fuel : forall t x pk sk path removed sks rng t' k path' removed' sks' rng',
  encrypt_path_loop fuel t x pk sk path removed sks rng = Ok (t', k, path', removed', sks', rng') ->
  t_size t' = t_size t /\
  exists p r, path' = path ++ p /\ removed' = removed ++ r /\
    (exists d, direct_path_loop fuel x (root (t_size t)) = Some d /\ length d = length p) /\
    forall removed2, (forall y, y ∈ r -> y ∈ removed2) -> apply_path_nodes t p removed2 = Ok t'.
Proof.
  induction fuel as [|fuel IH]; intros t x pk sk path removed sks rng t' k path' removed' sks' rng'; cbn [encrypt_path_loop direct_path_loop]; unfold is_root.
  - destruct (x =? root (t_size t)); [|discriminate]. intros Q. injection Q as <- <- <- <- <- <-.
    split; [reflexivity|]. exists [], []. rewrite !app_nil_r. split; [reflexivity|]. split; [reflexivity|]. split; [exists []; auto|]. intros; reflexivity.
  - destruct (x =? root (t_size t)).
    + intros Q. injection Q as <- <- <- <- <- <-.
      split; [reflexivity|]. exists [], []. rewrite !app_nil_r. split; [reflexivity|]. split; [reflexivity|]. split; [exists []; auto|]. intros; reflexivity.
    + intros Q. apply rbind_ok in Q as (o & Eo & Q). apply rbind_ok in Q as (ks & Ek & Q). apply rbind_ok in Q as ([nsk rng1] & _ & Q).
      apply rbind_ok in Q as ([st rng2] & Es & Q). apply rbind_ok in Q as (t1 & Et & Q).
      unfold write_inner in Et. destruct (Nat.ltb_spec (inner_from_tree (parent x)) (length (t_inner t))) as [L|L]; [|discriminate]. injection Et as <-.
      apply IH in Q as (Sz & p & r & -> & -> & (d & Ed & Ld) & A). cbn [t_size set_inner] in *.
      split; [exact Sz|]. exists ((inner_from_tree (parent x), st) :: p), (ks ++ r).
      rewrite <- !app_assoc. split; [reflexivity|]. split; [reflexivity|]. split.
      { rewrite Ed. eexists. split; [reflexivity|]. cbn. lia. }
      intros removed2 Hr. cbn [apply_path_nodes].
      unfold inner_at in Eo. rewrite Eo. cbn [rbind].
      assert (Em : match o with Some cur => store_merge cur st removed2 | None => st end = st).
      { destruct o as [s|]; [|reflexivity]. unfold store_merge, remove_keys_from.
        apply rbind_ok in Ek as (nk & En & Ek). injection Ek as <-.
        assert (Hk : nk_keys nk = map v_pk s).
        { unfold store_node_key in En. destruct (map v_pk s) as [|a [|b more]]; [discriminate|injection En as <-; reflexivity|injection En as <-; reflexivity]. }
        assert (F : filter (fun v => v_pk v ∉ removed2) s = []).
        { apply elem_of_nil_inv. intros v Hv. apply elem_of_list_filter in Hv as [N Hv]. apply N, Hr, elem_of_app. left. rewrite Hk.
          apply elem_of_list_fmap. eauto. }
        rewrite F. reflexivity. }
      rewrite Em. apply A. intros y Hy. apply Hr, elem_of_app. auto.
Qed.

Lemma encrypt_path_apply t id pk sks rng t' k pc sks' rng' :
  encrypt_path t id pk sks rng = Ok (t', k, pc, sks', rng') -> apply_path t pc = Ok t'.
Proof.
  unfold encrypt_path. intros Q. apply rbind_ok in Q as (i & Ei & Q). apply rbind_ok in Q as (old & Eold & Q).
  apply rbind_ok in Q as (t1 & Et & Q). apply rbind_ok in Q as (csk & _ & Q).
  apply rbind_ok in Q as ([[[[[t2 k2] path] removed] sks2] rng2] & El & Q). injection Q as <- <- <- <- <-.
  assert (Ei' : t_ids t !! id = Some i) by (unfold leaf_index_for_id in Ei; destruct (t_ids t !! id); cbn in Ei; congruence).
  assert (exists l, leaf_at t i = Ok (Some l) /\ old = l_pk l) as (l & Ll & ->).
  { unfold node_key_for_id in Eold. rewrite Ei in Eold. cbn [rbind] in Eold. unfold node_key_for_index in Eold.
    assert (Hl : is_leaf_idx (leaf_to_tree i) = true) by (unfold is_leaf_idx, leaf_to_tree; apply Nat.even_spec; exists i; lia).
    assert (Hf : leaf_from_tree (leaf_to_tree i) = i).
    { unfold leaf_from_tree, leaf_to_tree. rewrite Nat.mul_comm. apply Nat.div_mul. lia. }
    rewrite Hl, Hf in Eold. apply rbind_ok in Eold as (o & Eo & Eold). apply rbind_ok in Eold as (l & Eo' & Eold). injection Eold as <-.
    destruct o as [l'|]; [|discriminate]. cbn in Eo'. injection Eo' as ->. eauto. }
  unfold write_leaf in Et. destruct (Nat.ltb_spec i (length (t_leaves t))) as [L|L]; [|discriminate]. injection Et as <-.
  apply encrypt_loop_apply in El as (Sz & p & r & Ep & Er & (d & Ed & Ld) & A). cbn [app] in Ep. cbn [t_size set_leaves] in Ed. subst path removed.
  unfold apply_path. cbn [pc_leaf_id pc_leaf_idx pc_leaf_pk pc_path pc_removed]. rewrite Ei'. unfold path_length_for, direct_path. rewrite Ed.
  rewrite Ld, !Nat.eqb_refl. cbn [andb]. rewrite Ll. cbn [rbind expect].
  assert (Em : nk_merge (l_pk l) (SKey pk) (nk_keys (l_pk l) ++ r) = Ok (SKey pk)).
  { unfold nk_merge. destruct (l_pk l) as [k0|a b more] eqn:El.
    - rewrite decide_True; [reflexivity|]. cbn. left.
    - assert (F : filter (fun k => k ∉ nk_keys (CKeys a b more) ++ r) (nk_keys (CKeys a b more)) = []).
      { apply elem_of_nil_inv. intros v Hv. apply elem_of_list_filter in Hv as [N Hv]. apply N, elem_of_app. auto. }
      rewrite F. reflexivity. }
  rewrite Em. cbn [rbind]. unfold write_leaf. apply Nat.ltb_lt in L. rewrite L. cbn [rbind].
  apply A. intros y Hy. apply elem_of_app. auto.
Qed.
