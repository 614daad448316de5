(** Stored secrets match the keys they are filed under, so whatever root secret a replica
    derives is the one that belongs to the tree's root key. *)
From Coq Require Import Arith Lia.
From stdpp Require Import base list gmap relations.
From Verif Require Import ResModel KeysModel TreeMathModel TreeMathSpec TreeMathProofs TreeModel TreeView OpsModel OpsSpec OpsInv OpsProofs OpsEpochs OpsPropsProofs OpsExtend
  CgkaModel CgkaSpec CgkaProofs CgkaReplay CgkaConverge NetSpec.

Definition sound_version (v : version) : Prop := forall i e, v_sk v !! i = Some e -> pub (es_msg e) = v_pk v.
Definition sound_store (s : store) : Prop := Forall sound_version s.
Definition sound_inner (l : list (option store)) : Prop := forall s, Some s ∈ l -> sound_store s.
Definition sound_tree (t : tree) : Prop := sound_inner (t_inner t).
Definition sound_op (o : cgka_op) : Prop :=
  match o with CUpdate _ pc _ => Forall (fun p => sound_store p.2) (pc_path pc) | _ => True end.

Lemma sound_insert i s l : sound_inner l -> (forall x, s = Some x -> sound_store x) -> sound_inner (<[i := s]> l).
Proof.
  intros H Hs x Hx. apply elem_of_list_lookup in Hx as [j Hj]. destruct (decide (i = j)) as [<-|N].
  - destruct (decide (i < length l)) as [L|L].
    + rewrite list_lookup_insert in Hj by exact L. injection Hj as Hj. auto.
    + rewrite list_insert_ge in Hj by lia. apply H. eapply elem_of_list_lookup_2; eauto.
  - rewrite list_lookup_insert_ne in Hj by auto. apply H. eapply elem_of_list_lookup_2; eauto.
Qed.
Lemma sound_resize n l : sound_inner l -> sound_inner (resize_vec n l).
Proof.
  intros H s Hs. unfold resize_vec in Hs. apply elem_of_app in Hs as [Hs|Hs].
  - apply H. apply elem_of_take in Hs as (i & Hi & _). eapply elem_of_list_lookup_2; eauto.
  - apply elem_of_replicate in Hs as [Q _]. discriminate.
Qed.

Lemma write_inner_sound t x s t' : write_inner t x s = Ok t' -> sound_tree t -> (forall y, s = Some y -> sound_store y) -> sound_tree t'.
Proof.
  unfold write_inner. destruct (_ <? _); [|discriminate]. intros Q; injection Q as <-. apply sound_insert.
Qed.
Lemma write_leaf_inner t i l t' : write_leaf t i l = Ok t' -> t_inner t' = t_inner t /\ t_size t' = t_size t /\ t_ids t' = t_ids t.
Proof. unfold write_leaf. destruct (_ <? _); [|discriminate]. intros Q; injection Q as <-. auto. Qed.

Lemma blank_path_loop_sound fuel : forall t x t', blank_path_loop fuel t x = Ok t' -> sound_tree t -> sound_tree t'.
Proof.
  induction fuel as [|fuel IH]; intros t x t'; cbn [blank_path_loop]; intros Q H; apply rbind_ok in Q as (t1 & E & Q).
  all: assert (H1 : sound_tree t1) by (eapply write_inner_sound; [exact E|exact H|discriminate]).
  all: destruct (is_root t x); [injection Q as <-; exact H1|]; [discriminate Q + eauto].
Qed.
Lemma blank_path_loop_size fuel : forall t x t', blank_path_loop fuel t x = Ok t' -> t_size t' = t_size t.
Proof.
  intros t x t' Q. apply blank_path_loop_eq in Q as (xs & _ & _ & ->). reflexivity.
Qed.

(** Soundness and size together. *)
Definition good_tree (t : tree) : Prop := sound_tree t /\ exists h, 1 <= h /\ t_size t = complete_size h.

Lemma good_blank_path t x t' : blank_path t x = Ok t' -> good_tree t -> good_tree t'.
Proof.
  intros Q [S Z]. split; [eapply blank_path_loop_sound; eauto|]. rewrite (blank_path_loop_size _ _ _ _ Q). exact Z.
Qed.
Lemma good_blank_leaf t i t' : blank_leaf_and_path t i = Ok t' -> good_tree t -> good_tree t'.
Proof.
  unfold blank_leaf_and_path. intros Q [S Z]. apply rbind_ok in Q as (t1 & E & Q). apply write_leaf_inner in E as (A & B & _).
  eapply good_blank_path; [exact Q|]. unfold good_tree, sound_tree. rewrite A, B. auto.
Qed.
Lemma good_push t id nk t' i : push_leaf t id nk = Ok (t', i) -> good_tree t -> good_tree t'.
Proof.
  unfold push_leaf. intros Q [S (h & H1 & Hs)].
  assert (G1 : good_tree (maybe_grow_tree t (t_next t))).
  { unfold maybe_grow_tree. destruct (_ <=? _); [split; eauto|]. split; cbn.
    - apply sound_resize, S.
    - exists (Datatypes.S h). split; [lia|]. rewrite Hs. apply size_inc_complete. }
  apply rbind_ok in Q as (t1 & E & Q). apply write_leaf_inner in E as (A & B & _). cbn in A, B.
  apply rbind_ok in Q as (t2 & E2 & Q). injection Q as <- _.
  eapply good_blank_path; [exact E2|]. destruct G1 as [G1 G2]. unfold good_tree, sound_tree. cbn. rewrite A, B. auto.
Qed.
Lemma good_collect fuel : forall t t', collect_tombstones fuel t = Ok t' -> good_tree t -> good_tree t'.
Proof.
  induction fuel as [|fuel IH]; intros t t'; cbn [collect_tombstones]; destruct (t_next t) as [|n]; try discriminate; intros Q G.
  all: apply rbind_ok in Q as (o & _ & Q); destruct o as [l|]; [injection Q as <-; exact G|]; try discriminate.
  apply rbind_ok in Q as (t1 & E & Q). eapply good_blank_path in E; [|exact G]. eapply IH; [exact Q|exact E].
Qed.
Lemma good_remove t id t' x : remove_id t id = Ok (t', x) -> good_tree t -> good_tree t'.
Proof.
  unfold remove_id. destruct (_ =? 1); [discriminate|]. intros Q G. apply rbind_ok in Q as (i & _ & Q). destruct (direct_path _ _); [|discriminate].
  apply rbind_ok in Q as (ks & _ & Q). apply rbind_ok in Q as (t1 & E & Q). apply rbind_ok in Q as (t2 & E2 & Q). injection Q as <- _.
  eapply good_collect; [exact E2|]. apply (good_blank_leaf _ _ _ E G).
Qed.
Lemma good_apply_nodes path : forall t removed t', apply_path_nodes t path removed = Ok t' ->
  Forall (fun p => sound_store p.2) path -> good_tree t -> good_tree t'.
Proof.
  induction path as [|[i s] path IH]; intros t removed t'; cbn [apply_path_nodes].
  - intros Q; injection Q as <-. auto.
  - intros Q F [G Z]. inversion F as [|? ? Fs F']; subst. cbn in Fs. apply rbind_ok in Q as (o & E & Q). eapply IH; [exact Q|exact F'|].
    split; [|exact Z]. apply sound_insert; [exact G|]. intros y Hy. injection Hy as <-.
    destruct o as [cur|]; [|exact Fs]. unfold store_merge, remove_keys_from. apply Forall_app. split; [|exact Fs].
    apply Forall_forall. intros v Hv. apply elem_of_list_filter in Hv as [_ Hv]. revert v Hv. apply Forall_forall. apply G. destruct (t_inner t !! i) as [x|] eqn:Ei; [|discriminate]. cbn in E. injection E as ->. eapply elem_of_list_lookup_2; eauto.
Qed.
Lemma good_apply_path t pc t' : apply_path t pc = Ok t' -> Forall (fun p => sound_store p.2) (pc_path pc) -> good_tree t -> good_tree t'.
Proof.
  unfold apply_path. destruct (t_ids t !! _) as [i|]; [|intros Q; injection Q as <-; auto]. destruct (path_length_for _ _); [|discriminate].
  intros Q F G. apply rbind_ok in Q as (o & _ & Q). apply rbind_ok in Q as (l & _ & Q). apply rbind_ok in Q as (nk & _ & Q). apply rbind_ok in Q as (t1 & E & Q).
  apply write_leaf_inner in E as (A & B & _).
  assert (G1 : good_tree t1) by (destruct G; unfold good_tree, sound_tree; rewrite A, B; auto).
  destruct (_ && _); [eapply good_apply_nodes; eauto|eapply good_blank_path; eauto].
Qed.
Lemma good_tree_apply t op t' : tree_apply t op = Ok t' -> sound_op op -> good_tree t -> good_tree t'.
Proof.
  destruct op as [id pk i ps aps|id i ks ps|id pc ps]; cbn; intros Q F G.
  - apply rbind_ok in Q as ([t1 j] & E & Q). injection Q as <-. eapply good_push; eauto.
  - apply rbind_ok in Q as ([t1 j] & E & Q). injection Q as <-. eapply good_remove; eauto.
  - eapply good_apply_path; eauto.
Qed.
Lemma good_pop f : forall t1 a1 acc t2 ls, pop_added f t1 a1 acc = Ok (t2, ls) -> good_tree t1 -> good_tree t2.
Proof.
  induction f as [|f IH]; intros t1 a1 acc t2 ls E G; cbn [pop_added] in E.
  - destruct (decide _); [injection E as <- <-; exact G|]. destruct (t_next t1); [injection E as <- <-; exact G|discriminate].
  - destruct (decide _); [injection E as <- <-; exact G|]. destruct (t_next t1) as [|m]; [injection E as <- <-; exact G|].
    apply rbind_ok in E as (o & _ & E). destruct (match o with Some _ => _ | None => _ end) as [a2 acc2].
    apply rbind_ok in E as (t3 & E3 & E). eapply IH; [exact E|]. apply (good_blank_leaf _ _ _ E3 G).
Qed.
Lemma good_sort t added rs t' : sort_leaves_and_blank_paths t added rs = Ok t' -> good_tree t -> good_tree t'.
Proof.
  unfold sort_leaves_and_blank_paths. intros Q G. apply rbind_ok in Q as ([t1 a1] & E & Q). apply rbind_ok in Q as ([t2 ls] & E2 & Q).
  assert (G1 : good_tree t1).
  { clear -E G. revert t added E G. induction rs as [|[id i] rs IH]; intros t added E G; cbn [blank_removed] in E; [injection E as <- <-; exact G|].
    apply rbind_ok in E as (t3 & E3 & E). eapply IH; [exact E|]. eapply good_blank_leaf; eauto. }
  assert (G2 : good_tree t2).
  { exact (good_pop _ _ _ _ _ _ E2 G1). }
  clear -Q G2. revert t2 Q G2. induction (sort_leaves ls) as [|l l' IH]; intros t2 Q G; cbn [push_leaves] in Q; [injection Q as <-; exact G|].
  apply rbind_ok in Q as ([t3 j] & E & Q). eapply IH; [exact Q|]. eapply good_push; eauto.
Qed.

Lemma good_apply_operation c op c' : apply_operation c op = Ok c' -> sound_op (so_op op) -> good_tree (c_tree c) -> good_tree (c_tree c').
Proof.
  rewrite apply_operation_eq. destruct (contains_op _ _); [intros Q; injection Q as <-; auto|]. intros Q F G.
  apply rbind_ok in Q as (t & E & Q). injection Q as <-. cbn. eapply good_tree_apply; eauto.
Qed.
Lemma good_apply_operations ops : forall c c', apply_operations c ops = Ok c' -> Forall (fun o => sound_op (so_op o)) ops -> good_tree (c_tree c) -> good_tree (c_tree c').
Proof.
  induction ops as [|op ops IH]; intros c c' Q F G; cbn [apply_operations] in Q; [injection Q as <-; exact G|].
  inversion F; subst. apply rbind_ok in Q as (c1 & E & Q). eapply IH; [exact Q|assumption|]. eapply good_apply_operation; eauto.
Qed.
Lemma good_apply_epochs rorder es : forall c c', apply_epochs rorder c es = Ok c' -> Forall (fun o => sound_op (so_op o)) (concat es) ->
  good_tree (c_tree c) -> good_tree (c_tree c').
Proof.
  induction es as [|e es IH]; intros c c' Q F G; cbn [apply_epochs] in Q; [injection Q as <-; exact G|].
  cbn [concat] in F. apply Forall_app in F as [Fe F]. apply rbind_ok in Q as (c1 & E & Q). eapply IH; [exact Q|exact F|].
  assert (GG : (if forallb (fun op => is_update (so_op op)) e then apply_operations c e
      else let! c := apply_operations c e in
           let! t := sort_leaves_and_blank_paths (c_tree c) (epoch_added e) (rorder (epoch_removed e)) in
           Ok (set_tree c t)) = Ok c1 -> good_tree (c_tree c1)).
  { destruct (forallb _ e); [intros E1; eapply good_apply_operations; eauto|]. intros E1. apply rbind_ok in E1 as (c2 & E2 & E1).
    apply rbind_ok in E1 as (t & Et & E1). injection E1 as <-. cbn. eapply good_sort; [exact Et|]. eapply good_apply_operations; eauto. }
  destruct e as [|op [|op' e]]; [exact (GG E)| |exact (GG E)].
  cbn [apply_epoch] in E. inversion Fe; subst. eapply good_apply_operation; eauto.
Qed.
Lemma good_init id pk init c : cgka_from_init id pk init = Ok c -> good_tree (c_tree c).
Proof.
  unfold cgka_from_init. intros Q. apply rbind_ok in Q as (t & E & Q). injection Q as <-. cbn.
  unfold tree_new in E. apply rbind_ok in E as ([t1 i] & E & Q). injection Q as <-. eapply good_push; [exact E|]. split; cbn.
  - apply sound_resize. intros s Hs. apply elem_of_nil in Hs as [].
  - exists 1. split; [lia|reflexivity].
Qed.
Lemma good_replays rorder orig init es t g : replays rorder orig init es t g -> Forall (fun o => sound_op (so_op o)) (concat es) -> good_tree t.
Proof.
  intros (c0 & c1 & E0 & E1 & <- & _) F. eapply good_apply_epochs; [exact E1|exact F|]. eapply good_init; exact E0.
Qed.

(** ** The root secret *)

(** The tree has exactly one root key, with public key [pub k]. *)
Definition root_is (t : tree) (k : secret_key) : Prop :=
  exists v, inner_at t (root (t_size t)) = Ok (Some [v]) /\ v_pk v = pub k.
Lemma root_is_unique t k k' : root_is t k -> root_is t k' -> k = k'.
Proof. intros (v & E & P) (v' & E' & P'). rewrite E in E'. injection E' as <-. rewrite P in P'. exact P'. Qed.

Lemma root_not_leaf t : good_tree t -> is_leaf_idx (root (t_size t)) = false.
Proof. intros [_ (h & H1 & ->)]. rewrite root_complete. destruct h as [|h]; [lia|]. apply is_leaf_node_S. Qed.

Lemma leaf_idx_is_leaf i : is_leaf_idx (leaf_to_tree i) = true.
Proof. unfold is_leaf_idx, leaf_to_tree. apply Nat.even_spec. exists i. lia. Qed.

(** Decryption keeps key maps good, and what it returns belongs to the node it climbed to. *)
Lemma good_sks_insert sks k : good_sks sks -> good_sks (<[pub k := k]> sks).
Proof. intros G pk sk E. apply lookup_insert_Some in E as [[<- <-]|[_ E]]; [reflexivity|auto]. Qed.

Lemma lookup_seen_in m seen e : lookup_seen m seen = Some e -> exists i, m !! i = Some e.
Proof.
  unfold lookup_seen. assert (G : forall acc, (forall e, acc = Some e -> exists i, m !! i = Some e) ->
    foldl (fun acc i => match m !! i with Some e => Some e | None => acc end) acc seen = Some e -> exists i, m !! i = Some e).
  { induction seen as [|i seen IH]; intros acc A; cbn; [auto|]. apply IH. intros e' Q. destruct (m !! i) eqn:E; [injection Q as <-; eauto|auto]. }
  apply G. discriminate.
Qed.

Lemma store_decrypt_sound s ck sks seen k pk : sound_store s -> store_node_key s = Ok (SKey pk) -> store_decrypt s ck sks seen = Ok k -> pub k = pk.
Proof.
  intros S N. unfold store_decrypt. destruct (has_conflict s); [discriminate|]. destruct s as [|v [|v' s]]; [discriminate| |discriminate].
  injection N as <-. inversion S as [|? ? Sv _]; subst. unfold version_decrypt. intros Q. apply rbind_ok in Q as (e & El & Q).
  destruct (lookup_seen (v_sk v) seen) as [e'|] eqn:E'; [|discriminate]. injection El as ->. apply lookup_seen_in in E' as [i Ei].
  assert (P : forall key, sym_decrypt key e = Ok k -> pub k = v_pk v).
  { intros key Q'. unfold sym_decrypt in Q'. destruct (decide _); [|discriminate]. injection Q' as <-. eapply Sv; exact Ei. }
  destruct (nk_contains _ _).
  - apply rbind_ok in Q as (s & _ & Q). eapply P; exact Q.
  - unfold try_decrypt_encryption in Q. apply rbind_ok in Q as (s & _ & Q). eapply P; exact Q.
Qed.

Lemma inner_at_sound t x s : inner_at t x = Ok (Some s) -> sound_tree t -> sound_store s.
Proof.
  unfold inner_at. intros E G. apply G. destruct (t_inner t !! _) eqn:Q; [|discriminate]. cbn in E. injection E as ->. eapply elem_of_list_lookup_2; eauto.
Qed.

Lemma maybe_decrypt_sound t x ck seen sks sks' r : sound_tree t -> good_sks sks -> maybe_decrypt_parent_key t x ck seen sks = (sks', r) ->
  good_sks sks' /\ forall k, r = Ok (Some k) -> exists s, inner_at t (parent x) = Ok (Some s) /\ store_node_key s = Ok (SKey (pub k)).
Proof.
  intros G GS. unfold maybe_decrypt_parent_key. destruct (inner_at t (parent x)) as [[s|]|e| |] eqn:Ei; try (intros Q; injection Q as <- <-; split; [exact GS|discriminate]).
  destruct (store_node_key s) as [[pk|a b more]|e| |] eqn:En; try (intros Q; injection Q as <- <-; split; [exact GS|discriminate]).
  destruct (sks !! pk) as [k|] eqn:Ek.
  - intros Q; injection Q as <- <-. split; [exact GS|]. intros k' Q. injection Q as <-. exists s. rewrite (GS _ _ Ek). auto.
  - destruct (store_decrypt s ck sks seen) as [k|e| |] eqn:Ed; try (intros Q; injection Q as <- <-; split; [exact GS|discriminate]).
    pose proof (store_decrypt_sound _ _ _ _ _ _ (inner_at_sound _ _ _ Ei G) En Ed) as P.
    intros Q; injection Q as <- <-. rewrite <- P. split; [apply good_sks_insert, GS|]. intros k' Q. injection Q as <-. exists s. rewrite P. auto.
Qed.

Lemma decrypt_loop_sound fuel : forall t x ck seen sks last sks' r, sound_tree t -> good_sks sks ->
  (forall k, last = Some k -> is_leaf_idx x = false -> exists s, inner_at t x = Ok (Some s) /\ store_node_key s = Ok (SKey (pub k))) ->
  decrypt_loop fuel t x ck seen sks last = (sks', r) ->
  good_sks sks' /\ forall k, r = Ok (Some k) -> is_leaf_idx (root (t_size t)) = false ->
    exists s, inner_at t (root (t_size t)) = Ok (Some s) /\ store_node_key s = Ok (SKey (pub k)).
Proof.
  induction fuel as [|fuel IH]; intros t x ck seen sks last sks' r G GS L; cbn [decrypt_loop]; unfold is_root.
  - destruct (Nat.eqb_spec x (root (t_size t))) as [E|E]; intros Q; injection Q as <- <-; (split; [exact GS|]); [|discriminate].
    intros k Q NL. injection Q as ->. subst x. apply L; auto.
  - destruct (Nat.eqb_spec x (root (t_size t))) as [E|E]; [intros Q; injection Q as <- <-; split; [exact GS|]; intros k Q NL; injection Q as ->; subst x; apply L; auto|].
    destruct (skip_up (t_size t) t x) as [y|e| |]; try (intros Q; injection Q as <- <-; split; [exact GS|discriminate]).
    destruct (maybe_decrypt_parent_key t y ck seen sks) as [sks1 r1] eqn:Em. apply (maybe_decrypt_sound _ _ _ _ _ _ _ G GS) in Em as [GS1 P].
    destruct r1 as [[k|]|e| |]; try (intros Q; injection Q as <- <-; split; [exact GS1|discriminate]).
    destruct (node_key_for_index t (parent y)) as [nk|e| |]; try (intros Q; injection Q as <- <-; split; [exact GS1|discriminate]).
    apply IH; [exact G|exact GS1|]. intros k' Q _. injection Q as <-. exact (P k eq_refl).
Qed.

Lemma decrypt_tree_secret_sound t owner sks sks' r : good_tree t -> good_sks sks -> decrypt_tree_secret t owner sks = (sks', r) ->
  good_sks sks' /\ forall k, r = Ok k -> root_is t k.
Proof.
  intros G GS. unfold decrypt_tree_secret. pose proof (root_not_leaf t G) as NL. destruct G as [G _].
  destruct (match t_ids t !! owner with Some i => Some i | None => _ end) as [i|]; [|intros Q; injection Q as <- <-; split; [exact GS|discriminate]].
  destruct (has_root_key t) as [[]|e| |]; try (intros Q; injection Q as <- <-; split; [exact GS|discriminate]).
  destruct (leaf_at t i) as [[l|]|e| |]; try (intros Q; injection Q as <- <-; split; [exact GS|discriminate]).
  destruct (decrypt_loop _ _ _ _ _ _ _) as [sks1 r1] eqn:Ed.
  apply decrypt_loop_sound in Ed as [GS1 P]; [|exact G|exact GS|discriminate].
  destruct r1 as [[k|]|e| |]; intros Q; injection Q as <- <-; (split; [exact GS1|]); try discriminate.
  intros k' Q. injection Q as <-. destruct (P k eq_refl NL) as (s & E & N).
  destruct s as [|v [|v' s]]; try discriminate. injection N as N. exists v. auto.
Qed.

Lemma root_key_sound c c' r : good_tree (c_tree c) -> good_sks (c_sks c) -> pcs_key_from_tree_root c = (c', r) ->
  good_sks (c_sks c') /\ forall k, r = Ok k -> root_is (c_tree c) k.
Proof.
  intros G GS. unfold pcs_key_from_tree_root. destruct (decrypt_tree_secret (c_tree c) (c_owner c) (c_sks c)) as [sks r1] eqn:E.
  apply (decrypt_tree_secret_sound _ _ _ _ _ G GS) in E as [GS1 P].
  destruct r1 as [k|e| |]; try (intros Q; injection Q as <- <-; split; [exact GS1|auto]).
  destruct (negb _ && _); [|intros Q; injection Q as <- <-; split; [exact GS1|discriminate]].
  destruct (decrypt_tree_secret (c_tree c) public_id sks) as [sks2 r2] eqn:E2.
  apply (decrypt_tree_secret_sound _ _ _ _ _ G GS1) in E2 as [GS2 P2]. intros Q; injection Q as <- <-. auto.
Qed.

(** ** What an update makes *)
Lemma encrypt_for_sound t ci csk nsk r : forall used m m', encrypt_for t ci csk nsk used r m = Ok m' ->
  (forall i e, m !! i = Some e -> es_msg e = nsk) -> forall i e, m' !! i = Some e -> es_msg e = nsk.
Proof.
  induction r as [|x r IH]; intros used m m'; cbn [encrypt_for]; [intros Q; injection Q as <-; auto|].
  intros Q H. apply rbind_ok in Q as (nk & _ & Q). destruct nk as [pk|]; [|discriminate]. eapply IH; [exact Q|].
  intros i e E. apply lookup_insert_Some in E as [[_ <-]|[_ E]]; [reflexivity|]. destruct used; [eauto|].
  apply lookup_insert_Some in E as [[_ <-]|[_ E]]; [reflexivity|eauto].
Qed.
Lemma new_secret_store_sound t ci cpk csk nsk rng s rng' : new_secret_store t ci cpk csk (pub nsk) nsk rng = Ok (s, rng') ->
  sound_store s /\ exists v, s = [v] /\ v_pk v = pub nsk.
Proof.
  unfold new_secret_store. intros Q. apply rbind_ok in Q as (r & _ & Q).
  assert (G : forall m, (forall i e, m !! i = Some e -> es_msg e = nsk) -> sound_store (store_new (pub nsk) cpk m)).
  { intros m H. constructor; [|constructor]. intros i e E. cbn in *. rewrite (H i e E). reflexivity. }
  destruct r as [|x r].
  - apply rbind_ok in Q as ([psk rng1] & _ & Q). injection Q as <- <-. split; [|eexists; split; reflexivity].
    apply G. intros i e E. apply lookup_singleton_Some in E as [_ <-]. reflexivity.
  - apply rbind_ok in Q as (m & Em & Q). injection Q as <- <-. split; [|eexists; split; reflexivity].
    apply G. eapply encrypt_for_sound; [exact Em|]. intros i e E. rewrite lookup_empty in E. discriminate.
Qed.
Lemma encrypt_loop_sound fuel : forall t x pk sk path removed sks rng t' k path' removed' sks' rng',
  encrypt_path_loop fuel t x pk sk path removed sks rng = Ok (t', k, path', removed', sks', rng') ->
  good_sks sks -> Forall (fun p => sound_store p.2) path ->
  (is_leaf_idx x = false -> exists v, inner_at t x = Ok (Some [v]) /\ v_pk v = pub sk) ->
  good_sks sks' /\ Forall (fun p => sound_store p.2) path' /\ t_size t' = t_size t /\
  (is_leaf_idx (root (t_size t)) = false -> exists v, inner_at t' (root (t_size t)) = Ok (Some [v]) /\ v_pk v = pub k).
Proof.
  induction fuel as [|fuel IH]; intros t x pk sk path removed sks rng t' k path' removed' sks' rng' Q GS F L; cbn [encrypt_path_loop] in Q; unfold is_root in Q.
  - destruct (Nat.eqb_spec x (root (t_size t))) as [E|E]; [|discriminate]. injection Q as <- <- <- <- <- <-. subst x. auto.
  - destruct (Nat.eqb_spec x (root (t_size t))) as [E|E]; [injection Q as <- <- <- <- <- <-; subst x; auto|].
    apply rbind_ok in Q as (o & Eo & Q). apply rbind_ok in Q as (ks & _ & Q). apply rbind_ok in Q as ([nsk rng1] & _ & Q).
    apply rbind_ok in Q as ([st rng2] & Es & Q). apply rbind_ok in Q as (t1 & Et & Q).
    apply new_secret_store_sound in Es as [S1 (v & -> & Pv)].
    unfold write_inner in Et. destruct (Nat.ltb_spec (inner_from_tree (parent x)) (length (t_inner t))) as [B|B]; [|discriminate]. injection Et as <-.
    apply IH in Q as (A1 & A2 & A3 & A4).
    + cbn [t_size set_inner] in *. auto.
    + apply good_sks_insert, GS.
    + apply Forall_app. split; [exact F|]. constructor; [exact S1|constructor].
    + intros _. exists v. split; [|exact Pv]. unfold inner_at. cbn [t_inner set_inner]. rewrite list_lookup_insert by exact B. reflexivity.
Qed.
Lemma encrypt_path_sound t id pk sks rng t' k pc sks' rng' : good_tree t -> good_sks sks -> encrypt_path t id pk sks rng = Ok (t', k, pc, sks', rng') ->
  good_sks sks' /\ Forall (fun p => sound_store p.2) (pc_path pc) /\ root_is t' k.
Proof.
  intros G GS Q. unfold encrypt_path in Q. apply rbind_ok in Q as (i & _ & Q). apply rbind_ok in Q as (old & _ & Q).
  apply rbind_ok in Q as (t1 & Et & Q). apply rbind_ok in Q as (csk & _ & Q).
  apply rbind_ok in Q as ([[[[[t2 k2] path] removed] sks2] rng2] & El & Q). injection Q as <- <- <- <- <-.
  apply write_leaf_inner in Et as (A & B & _).
  apply encrypt_loop_sound in El as (A1 & A2 & A3 & A4); [|exact GS|constructor|rewrite leaf_idx_is_leaf; discriminate].
  split; [exact A1|]. split; [exact A2|]. rewrite B in *. unfold root_is. rewrite A3. apply A4. apply root_not_leaf, G.
Qed.
