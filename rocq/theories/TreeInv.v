(** The invariant of key trees under uncontended histories, and its consequences. *)
From Coq Require Import Arith Lia.
From stdpp Require Import base list gmap.
From Verif Require Import ResModel KeysModel TreeModel TreeMathModel TreeMathSpec TreeMathProofs TreeSpec TreeOps TreeView TreeProofs.

(** ** The contents of a version *)

(** [v], stored in the parent of [(k, c)], was sealed from the child [(k, c)]: it holds
    one entry for that child and one for each node of the resolution of its sibling, and
    no other. *)
Record sealed (t : tree) (k c : nat) (v : version) (eph : share_key) : Prop := Sealed {
  sl_enc : nkey t k c = Some (v_encrypter v);
  sl_entries : forall x e, v_sk v !! x = Some e <->
    (x = node k c /\ e = encrypt_secret (v_pk v) (v_encrypter v) eph) \/
    (exists k0 j0 p, in_resolution t k (sib c) k0 j0 /\ nkey t k0 j0 = Some p /\
       x = node k0 j0 /\ e = encrypt_secret (v_pk v) (v_encrypter v) p);
  sl_eph : forall k0 j0, in_resolution t k (sib c) k0 j0 ->
    exists k1 j1, in_resolution t k (sib c) k1 j1 /\ nkey t k1 j1 = Some eph
}.
Definition store_ok (t : tree) (k j : nat) (v : version) : Prop :=
  exists c eph, c / 2 = j /\ sealed t k c v eph.

Lemma in_resolution_ext t t' k j k0 j0 :
  (forall k1 j1, below k1 j1 k j -> nkey t' k1 j1 = nkey t k1 j1) ->
  in_resolution t k j k0 j0 <-> in_resolution t' k j k0 j0.
Proof.
  intros H. unfold in_resolution. split; intros (A & B & C).
  - split; [exact A|]. rewrite (H _ _ A). split; [exact B|].
    intros k1 j1 L B1 B2. rewrite (H _ _ B2). auto.
  - split; [exact A|]. rewrite (H _ _ A) in B. split; [exact B|].
    intros k1 j1 L B1 B2. rewrite <- (H _ _ B2). auto.
Qed.

Lemma sealed_ext t t' k c v eph :
  nkey t' k c = nkey t k c ->
  (forall k1 j1, below k1 j1 k (sib c) -> nkey t' k1 j1 = nkey t k1 j1) ->
  sealed t k c v eph -> sealed t' k c v eph.
Proof.
  intros Hc H [A B C]. split.
  - rewrite Hc. exact A.
  - intros x e. rewrite B. split; (intros [?|(k0 & j0 & p & R & K & ? & ?)]; [left; assumption|right]).
    + exists k0, j0, p. split; [apply (in_resolution_ext t t'); assumption|].
      rewrite H by apply R. auto.
    + exists k0, j0, p. assert (R' : in_resolution t k (sib c) k0 j0) by (apply (in_resolution_ext t t'); assumption).
      split; [exact R'|]. rewrite <- H by apply R. auto.
  - intros k0 j0 R. apply (in_resolution_ext t t') in R; [|exact H].
    destruct (C _ _ R) as (k1 & j1 & R1 & K1). exists k1, j1.
    split; [apply (in_resolution_ext t t'); assumption|]. rewrite H by apply R1. exact K1.
Qed.

Lemma new_entries_sealed t k j cpk npk e v :
  nkey t k j = Some cpk -> v = Version npk (new_entries t k j cpk npk e) cpk ->
  exists eph, sealed t k j v eph /\ (resn t k (sib j) = [] -> eph = e).
Proof.
  intros K ->. unfold new_entries. destruct (resn t k (sib j)) as [|n r] eqn:R.
  - exists e. split; [|auto]. split; cbn [v_encrypter v_pk v_sk].
    + exact K.
    + intros x e'. rewrite lookup_singleton_Some. split.
      * intros [<- <-]. auto.
      * intros [[-> ->]|(k0 & j0 & p & Q & _)]; [auto|].
        apply resn_spec in Q. rewrite R in Q. inversion Q.
    + intros k0 j0 Q. apply resn_spec in Q. rewrite R in Q. inversion Q.
  - exists (rkey t n). split; [|discriminate].
    assert (RK : forall m, m ∈ n :: r -> nkey t m.1 m.2 = Some (rkey t m)).
    { intros [k0 j0] E. rewrite <- R in E. destruct (resn_key _ _ _ _ _ E) as [p Ep]. unfold rkey. cbn [fst snd].
      rewrite Ep. reflexivity. }
    split; cbn [v_encrypter v_pk v_sk].
    + exact K.
    + intros x e'. rewrite enc_entries_lookup.
      destruct (list_find (fun m => nidx m = x) (n :: r)) as [[i m]|] eqn:F.
      * apply list_find_Some in F as (L & E & _). apply elem_of_list_lookup_2 in L. split.
        -- intros Q. injection Q as <-. right. exists m.1, m.2, (rkey t m).
           split; [|auto]. apply resn_spec. rewrite R. destruct m; exact L.
        -- intros [[-> ->]|(k0 & j0 & p & Q & Kp & -> & ->)].
           ++ exfalso. destruct m as [k0 j0]. unfold nidx in E. cbn [fst snd] in E. apply node_inj in E as [-> ->].
              rewrite <- R in L. apply resn_below in L. apply below_level_eq in L.
              symmetry in L. exact (sib_neq _ L).
           ++ apply (nidx_inj m (k0, j0)) in E as ->. unfold rkey. cbn [fst snd]. rewrite Kp. reflexivity.
      * rewrite lookup_singleton_Some. split.
        -- intros [<- <-]. auto.
        -- intros [[-> ->]|(k0 & j0 & p & Q & Kp & -> & ->)]; [auto|].
           exfalso. apply list_find_None in F. rewrite Forall_forall in F.
           apply resn_spec in Q. rewrite R in Q. exact (F _ Q eq_refl).
    + intros k0 j0 _. exists n.1, n.2. split; [|apply RK; left].
      apply resn_spec. rewrite R. destruct n; left.
Qed.

(** ** Changes confined to a set of leaves and their ancestors *)
Record touched (t t' : tree) (P : nat -> Prop) : Prop := Touched {
  to_leaf : forall i, ~ P i -> leafv t' i = leafv t i;
  to_inner : forall k j, (forall i, P i -> j <> anc i (S k)) -> innerv t' k j = innerv t k j
}.
Lemma touched_nkey t t' P k j : touched t t' P -> (forall i, P i -> j <> anc i k) ->
  nkey t' k j = nkey t k j.
Proof.
  intros [A B] H. destruct k as [|k]; cbn [nkey].
  - rewrite A; [reflexivity|]. intros Pj. apply (H j Pj). symmetry. apply anc_0.
  - rewrite B; [reflexivity|exact H].
Qed.
Lemma not_anc_below i k j k0 j0 : below k0 j0 k j -> j <> anc i k -> j0 <> anc i k0.
Proof.
  intros [A B] N ->. apply N. change (anc (anc i k0) (k - k0) = j) in B.
  rewrite anc_anc in B. replace (k0 + (k - k0)) with k in B by lia. auto.
Qed.
Lemma touched_store_ok t t' P k j v : touched t t' P -> (forall i, P i -> j <> anc i (S k)) ->
  store_ok t k j v -> store_ok t' k j v.
Proof.
  intros T H (c & eph & Ec & Sl). exists c, eph. split; [exact Ec|].
  assert (B : forall c', c' / 2 = j -> forall k1 j1, below k1 j1 k c' -> nkey t' k1 j1 = nkey t k1 j1).
  { intros c' E k1 j1 B1. eapply touched_nkey; [exact T|]. intros i Pi.
    eapply not_anc_below; [exact B1|]. intros ->. apply (H i Pi). rewrite anc_S'. auto. }
  eapply sealed_ext; [| |exact Sl].
  - apply (B c Ec). apply below_refl.
  - apply B. rewrite sib_div2. exact Ec.
Qed.

(** ** The invariant *)
Record Inv (t : tree) (h : nat) : Prop := MkInv {
  inv_shape : shape t h;
  inv_next : t_next t <= 2 ^ h;
  inv_blank : forall i, t_next t <= i -> leafv t i = None;
  inv_last : exists n, t_next t = S n /\ is_Some (leafv t n);
  inv_ids : forall id i, t_ids t !! id = Some i <-> exists nk, leafv t i = Some (LeafNode id nk);
  inv_leaf : forall i l, leafv t i = Some l -> exists p, l_pk l = SKey p;
  inv_inner : forall k j s, innerv t k j = Some s -> exists v, s = [v] /\ store_ok t k j v
}.
Lemma inv_wfk t h : Inv t h -> wfk t.
Proof.
  intros V. split; [apply V|]. intros k j E. destruct (inv_inner _ _ V _ _ _ E) as (v & ? & _). discriminate.
Qed.
Lemma inv_leaf_lt t h i l : Inv t h -> leafv t i = Some l -> i < t_next t.
Proof.
  intros V E. destruct (Nat.lt_ge_cases i (t_next t)) as [|G]; [assumption|].
  rewrite (inv_blank _ _ V _ G) in E. discriminate.
Qed.
Lemma inv_id_range t h id i : Inv t h -> t_ids t !! id = Some i -> i < 2 ^ h.
Proof.
  intros V E. apply (inv_ids _ _ V) in E as [nk E]. pose proof (inv_leaf_lt _ _ _ _ V E).
  pose proof (inv_next _ _ V). lia.
Qed.
(** An inner node exists only inside the tree. *)
Lemma innerv_range t h k j s : shape t h -> innerv t k j = Some s -> inr h (S k) j.
Proof.
  intros S E. unfold innerv in E. destruct (t_inner t !! node k j) as [o|] eqn:L; [|discriminate].
  apply lookup_lt_Some in L. rewrite (sh_inner _ _ S) in L.
  pose proof (sh_h _ _ S) as H1.
  assert (L' : node k j < complete_size (h - 1)).
  { pose proof (complete_size_alt (h - 1)) as B. rewrite <- pow2_S in B.
    replace (Datatypes.S (h - 1)) with h in B by lia. lia. }
  destruct (in_tree_level _ _ _ L') as [A B]. split; [lia|].
  replace (h - Datatypes.S k) with (h - 1 - k) by lia. exact B.
Qed.

Definition abs_group (t : tree) (g : group) : Prop :=
  forall id pk, g !! id = Some pk <-> exists i, leafv t i = Some (LeafNode id (SKey pk)).

Lemma abs_ids t h g id : Inv t h -> abs_group t g -> is_Some (t_ids t !! id) <-> is_Some (g !! id).
Proof.
  intros V A. split; intros [x E].
  - apply (inv_ids _ _ V) in E as [nk E]. destruct (inv_leaf _ _ V _ _ E) as [p Hp]. cbn in Hp. subst nk.
    exists p. apply A. eauto.
  - apply A in E as [i E]. exists i. apply (inv_ids _ _ V). eauto.
Qed.
Lemma abs_size t h g : Inv t h -> abs_group t g -> member_count t = size g.
Proof.
  intros V A. unfold member_count. rewrite <- (size_dom (t_ids t)), <- (size_dom g). f_equal. apply set_eq. intros id.
  rewrite !elem_of_dom. eapply abs_ids; eauto.
Qed.

(** ** A new tree *)
Lemma tree_new_inv id pk : exists t, tree_new id pk = Ok t /\ Inv t 1 /\ abs_group t {[ id := pk ]}.
Proof.
  destruct (tree_new_spec id pk) as (t & E & S & Hn & Hi & Hl & Hin). exists t. split; [exact E|]. split.
  - split.
    + exact S.
    + rewrite Hn. cbn. lia.
    + intros i L. rewrite Hl, Hn in *. destruct (decide (i = 0)); [lia|reflexivity].
    + exists 0. rewrite Hn, Hl. split; [reflexivity|]. cbn. eauto.
    + intros id' i. rewrite Hi, lookup_singleton_Some, Hl. split.
      * intros [<- <-]. cbn. eauto.
      * intros [nk Q]. destruct (decide (i = 0)) as [->|]; [|discriminate]. injection Q as <- <-. auto.
    + intros i l. rewrite Hl. destruct (decide _); [|discriminate]. intros Q. injection Q as <-. cbn. eauto.
    + intros k j s. rewrite Hin. discriminate.
  - intros id' pk'. rewrite lookup_singleton_Some. split.
    + intros [<- <-]. exists 0. rewrite Hl. reflexivity.
    + intros [i Q]. rewrite Hl in Q. destruct (decide _); [|discriminate]. injection Q as -> ->. auto.
Qed.

(** ** Adding a member *)
Lemma push_leaf_inv t h g id pk : Inv t h -> abs_group t g -> t_ids t !! id = None ->
  exists t' i h', push_leaf t id (SKey pk) = Ok (t', i) /\ Inv t' h' /\ h <= h' /\
    added t t' id (SKey pk) i h' /\ abs_group t' (<[id := pk]> g).
Proof.
  intros V A N. destruct (push_leaf_spec t h id (SKey pk) (inv_shape _ _ V) (inv_next _ _ V))
    as (t' & i & h' & E & Hh & D). exists t', i, h'. split; [exact E|].
  pose proof (ad_idx _ _ _ _ _ _ D) as Hi.
  assert (Bi : leafv t i = None) by (apply (inv_blank _ _ V); lia).
  split; [|split; [exact Hh|split; [exact D|]]].
  - split.
    + apply D.
    + rewrite (ad_next _ _ _ _ _ _ D). pose proof (ad_lt _ _ _ _ _ _ D). lia.
    + intros i' L. rewrite (ad_leaf _ _ _ _ _ _ D). rewrite (ad_next _ _ _ _ _ _ D) in L.
      destruct (decide (i' = i)); [lia|]. apply (inv_blank _ _ V). lia.
    + exists i. rewrite (ad_next _ _ _ _ _ _ D), (ad_leaf _ _ _ _ _ _ D). split; [lia|].
      rewrite decide_True by reflexivity. eauto.
    + intros id' i'. rewrite (ad_ids _ _ _ _ _ _ D), lookup_insert_Some, (ad_leaf _ _ _ _ _ _ D). split.
      * intros [[<- <-]|[N' E']].
        -- rewrite decide_True by reflexivity. eauto.
        -- apply (inv_ids _ _ V) in E' as [nk E']. destruct (decide (i' = i)) as [->|]; [congruence|]. eauto.
      * intros [nk Q]. destruct (decide (i' = i)) as [->|Ni].
        -- injection Q as -> _. auto.
        -- right. assert (E' : t_ids t !! id' = Some i') by (apply (inv_ids _ _ V); eauto).
           split; [intros ->; congruence|exact E'].
    + intros i' l. rewrite (ad_leaf _ _ _ _ _ _ D). destruct (decide (i' = i)).
      * intros Q. injection Q as <-. cbn. eauto.
      * apply (inv_leaf _ _ V).
    + assert (T : touched t t' (eq i)).
      { split.
        - intros i' Ni. rewrite (ad_leaf _ _ _ _ _ _ D), decide_False by congruence. reflexivity.
        - intros k j Nj. rewrite (ad_inner _ _ _ _ _ _ D), decide_False; [reflexivity|].
          intros [_ Q]. exact (Nj i eq_refl Q). }
      intros k j s Q. pose proof (innerv_range _ _ _ _ _ (ad_shape _ _ _ _ _ _ D) Q) as [R _].
      assert (Nj : j <> anc i (S k)).
      { intros ->. rewrite (ad_inner _ _ _ _ _ _ D), decide_True in Q by (split; [lia|reflexivity]). discriminate. }
      rewrite (to_inner _ _ _ T) in Q by (intros ? <-; exact Nj).
      destruct (inv_inner _ _ V _ _ _ Q) as (v & -> & O). exists v. split; [reflexivity|].
      eapply touched_store_ok; [exact T| |exact O]. intros ? <-. exact Nj.
  - intros id' pk'. rewrite lookup_insert_Some. split.
    + intros [[<- <-]|[N' E']].
      * exists i. rewrite (ad_leaf _ _ _ _ _ _ D), decide_True by reflexivity. reflexivity.
      * apply A in E' as [i' E']. exists i'. rewrite (ad_leaf _ _ _ _ _ _ D).
        rewrite decide_False; [exact E'|]. intros ->. congruence.
    + intros [i' Q]. rewrite (ad_leaf _ _ _ _ _ _ D) in Q. destruct (decide (i' = i)) as [->|Ni].
      * injection Q as -> ->. auto.
      * right. split; [|apply A; eauto]. intros ->.
        assert (t_ids t !! id' = Some i') by (apply (inv_ids _ _ V); eauto). congruence.
Qed.

(** ** Removing a member *)
Lemma collect_tombstones_spec fuel t h :
  shape t h -> t_next t <= 2 ^ h -> t_next t <= fuel -> (exists i, i < t_next t /\ is_Some (leafv t i)) ->
  exists t' m, collect_tombstones fuel t = Ok t' /\ t_next t' = S m /\ m < t_next t /\ is_Some (leafv t m) /\
    (forall i, m < i < t_next t -> leafv t i = None) /\
    t_leaves t' = t_leaves t /\ t_ids t' = t_ids t /\ shape t' h /\
    (forall k j, innerv t' k j = None \/ innerv t' k j = innerv t k j) /\
    (forall k i, m < i < t_next t -> k < h -> innerv t' k (anc i (S k)) = None) /\
    (forall k j, (forall i, m < i < t_next t -> j <> anc i (S k)) -> innerv t' k j = innerv t k j).
Proof.
  revert t; induction fuel as [|f IH]; intros t S B F (i0 & Li & Hi0).
  - lia.
  - destruct (t_next t) as [|n] eqn:En; [lia|]. cbn [collect_tombstones]. rewrite En.
    rewrite (leaf_at_shape _ _ _ S) by lia. cbn [rbind].
    destruct (leafv t n) as [l|] eqn:El.
    + exists t, n. split; [reflexivity|]. split; [exact En|]. split; [lia|]. split; [eauto|].
      split; [intros; lia|]. split; [reflexivity|]. split; [reflexivity|]. split; [exact S|].
      split; [auto|]. split; [|reflexivity]. intros k i ? _. lia.
    + destruct (blank_leaf_path_spec t h n S ltac:(lia)) as (t1 & E1 & SO & V1).
      rewrite E1. cbn [rbind].
      pose proof (same_outer_shape _ _ _ SO S) as S1.
      destruct (IH (set_next t1 n)) as (t' & m & E & Em & Lm & Hm & Hb & EL & EI & S' & HM & HN & HS).
      * destruct S1; split; assumption.
      * cbn. lia.
      * cbn. lia.
      * cbn [set_next t_next]. exists i0. change (leafv (set_next t1 n) i0) with (leafv t1 i0).
        rewrite (same_outer_leafv _ _ _ SO). split; [|exact Hi0].
        destruct (decide (i0 = n)) as [->|]; [rewrite El in Hi0; destruct Hi0; discriminate|lia].
      * cbn [set_next t_next t_leaves t_ids] in *.
        assert (VL : forall i, leafv (set_next t1 n) i = leafv t i).
        { intros. change (leafv (set_next t1 n) i) with (leafv t1 i). apply same_outer_leafv. exact SO. }
        assert (VI : forall k j, innerv (set_next t1 n) k j = innerv t1 k j) by reflexivity.
        exists t', m. split; [exact E|]. split; [exact Em|]. split; [lia|].
        rewrite VL in Hm. split; [exact Hm|]. split.
        { intros i Hi. destruct (decide (i = n)) as [->|]; [exact El|]. rewrite <- VL. apply Hb. lia. }
        split; [rewrite EL; apply SO|]. split; [rewrite EI; apply SO|]. split; [exact S'|]. split; [|split].
        -- intros k j. destruct (HM k j) as [|Q]; [auto|]. rewrite Q, VI, V1. destruct (decide _); auto.
        -- intros k i Hi Hk. destruct (decide (i = n)) as [->|].
           ++ destruct (HM k (anc n (Datatypes.S k))) as [|Q]; [auto|]. rewrite Q, VI, V1.
              rewrite decide_True by auto. reflexivity.
           ++ apply HN; [lia|exact Hk].
        -- intros k j Nj. rewrite HS by (intros; apply Nj; lia). rewrite VI, V1, decide_False; [reflexivity|].
           intros [_ Q]. apply (Nj n); [lia|exact Q].
Qed.

Lemma path_keys_ok t h k j n : shape t h -> wfk t -> inr h k j -> k + n <= h ->
  path_keys t (up_path k j n) = Ok (concat (map (fun n => ikeys t n.1 n.2) (above k j n))).
Proof.
  intros S W. revert k j; induction n as [|n IH]; intros k j I L; [reflexivity|].
  rewrite above_S. cbn [up_path path_keys map concat fst snd].
  pose proof (inr_parent _ _ _ I ltac:(lia)) as Ip.
  rewrite (inner_at_shape _ _ _ _ S) by apply Ip. cbn [rbind].
  rewrite (IH (Datatypes.S k) (j / 2) Ip ltac:(lia)). unfold ikeys at 2.
  destruct (innerv t k (j / 2)) as [s|] eqn:E.
  - rewrite store_keys by (intros ->; exact (wf_inner _ W _ _ E)). reflexivity.
  - reflexivity.
Qed.

(** What [remove_id] does to leaf [i]: [m] is the last leaf that stays. *)
Record removed (t t' : tree) (id : member_id) (i h m : nat) : Prop := Removed {
  rm_shape : shape t' h;
  rm_was : t_ids t !! id = Some i;
  rm_next : t_next t' = S m;
  rm_le : m < t_next t;
  rm_last : is_Some (leafv t' m);
  rm_leaf : forall i', leafv t' i' = if decide (i' = i) then None else leafv t i';
  rm_gone : forall i', m < i' < t_next t -> leafv t' i' = None;
  rm_ids : t_ids t' = delete id (t_ids t);
  rm_mono : forall k j, innerv t' k j = None \/ innerv t' k j = innerv t k j;
  rm_blank : forall k i', (i' = i \/ m < i' < t_next t) -> k < h -> innerv t' k (anc i' (S k)) = None;
  rm_keep : forall k j, (forall i', i' = i \/ m < i' < t_next t -> j <> anc i' (S k)) -> innerv t' k j = innerv t k j
}.

Lemma remove_id_spec t h id i : Inv t h -> t_ids t !! id = Some i -> member_count t <> 1 ->
  exists t' m, remove_id t id = Ok (t', (i, concat (map (fun n => ikeys t n.1 n.2) (above 0 i h)))) /\
    removed t t' id i h m.
Proof.
  intros V Ei Nc. pose proof (inv_shape _ _ V) as S. pose proof (inv_id_range _ _ _ _ V Ei) as Hi.
  unfold remove_id. destruct (Nat.eqb_spec (member_count t) 1); [contradiction|].
  unfold leaf_index_for_id. rewrite Ei. cbn [ok_or rbind].
  rewrite leaf_to_tree_node, (sh_size _ _ S), direct_path_node
    by (apply in_tree_node; [lia|rewrite Nat.sub_0_r; exact Hi]).
  rewrite (path_keys_ok t h 0 i (h - 0) S (inv_wfk _ _ V)) by (try apply inr_leaf; lia).
  rewrite Nat.sub_0_r. cbn [rbind]. unfold blank_leaf_and_path.
  assert (Hl : i < length (t_leaves t)) by (rewrite (sh_leaves _ _ S); exact Hi).
  rewrite write_leaf_ok by exact Hl. cbn [rbind].
  set (t1 := set_leaves t _).
  assert (S1 : shape t1 h).
  { destruct S. split; cbn [t1 set_leaves t_size t_leaves t_inner]; rewrite ?insert_length; assumption. }
  destruct (blank_leaf_path_spec t1 h i S1 Hi) as (t2 & E2 & SO & V2). rewrite E2. cbn [rbind].
  set (t3 := set_ids t2 _).
  pose proof (same_outer_shape _ _ _ SO S1) as S2.
  assert (S3 : shape t3 h) by (destruct S2; split; assumption).
  assert (VL : forall i', leafv t3 i' = if decide (i' = i) then None else leafv t i').
  { intros i'. change (leafv t3 i') with (leafv t2 i'). rewrite (same_outer_leafv _ _ _ SO).
    apply leafv_write. exact Hl. }
  assert (VI : forall k0 j0, innerv t3 k0 j0 = if decide (k0 < h /\ j0 = anc i (Datatypes.S k0)) then None else innerv t k0 j0).
  { intros k0 j0. change (innerv t3 k0 j0) with (innerv t2 k0 j0). rewrite V2. reflexivity. }
  assert (N3 : t_next t3 = t_next t).
  { change (t_next t3) with (t_next t2). rewrite (so_next _ _ SO). reflexivity. }
  destruct (collect_tombstones_spec (t_next t3) t3 h S3) as (t' & m & E & Em & Lm & Hm & Hb & EL & EI & S' & HM & HN & HS).
  - rewrite N3. apply V.
  - lia.
  - (* another member is left *)
    assert (exists id' i', id' <> id /\ t_ids t !! id' = Some i') as (id' & i' & Nid & Ei').
    { destruct (decide (delete id (t_ids t) = ∅)) as [D|D].
      - exfalso. apply Nc. unfold member_count.
        assert (Q : size (delete id (t_ids t)) = size (t_ids t) - 1).
        { rewrite map_size_delete, Ei. cbn. lia. }
        rewrite D, map_size_empty in Q.
        assert (size (t_ids t) <> 0).
        { intros Z. apply map_size_empty_inv in Z. rewrite Z in Ei. rewrite lookup_empty in Ei. discriminate. }
        lia.
      - apply map_choose in D as (id' & i' & D). apply lookup_delete_Some in D as [? ?]. eauto. }
    apply (inv_ids _ _ V) in Ei' as [nk El]. exists i'. rewrite N3, VL.
    split; [eapply inv_leaf_lt; eauto|]. destruct (decide (i' = i)) as [->|]; [|eauto].
    exfalso. apply (inv_ids _ _ V) in Ei as [nk' El']. rewrite El' in El. injection El as -> _. contradiction.
  - rewrite E. cbn [rbind]. exists t', m. split; [reflexivity|]. rewrite N3 in *.
    assert (VL' : forall i', leafv t' i' = leafv t3 i') by (intros; unfold leafv; rewrite EL; reflexivity).
    split.
    + exact S'.
    + exact Ei.
    + exact Em.
    + exact Lm.
    + rewrite VL'. exact Hm.
    + intros i'. rewrite VL'. apply VL.
    + intros i' L. rewrite VL'. apply Hb. exact L.
    + rewrite EI. unfold t3. cbn [set_ids t_ids]. rewrite (so_ids _ _ SO). reflexivity.
    + intros k j. destruct (HM k j) as [|Q]; [auto|]. rewrite Q, VI. destruct (decide _); auto.
    + intros k i' [->|L] Hk.
      * destruct (HM k (anc i (Datatypes.S k))) as [|Q]; [auto|]. rewrite Q, VI, decide_True by auto. reflexivity.
      * apply HN; assumption.
    + intros k j Nj. rewrite HS by (intros; apply Nj; auto). rewrite VI, decide_False; [reflexivity|].
      intros [_ Q]. apply (Nj i); auto.
Qed.

Lemma remove_id_inv t t' h g id i m : Inv t h -> abs_group t g -> removed t t' id i h m ->
  Inv t' h /\ abs_group t' (delete id g).
Proof.
  intros V A R. pose proof (rm_was _ _ _ _ _ _ R) as Ei.
  destruct (proj1 (inv_ids _ _ V _ _) Ei) as [nk Eli].
  split.
  - split.
    + apply R.
    + rewrite (rm_next _ _ _ _ _ _ R). pose proof (rm_le _ _ _ _ _ _ R). pose proof (inv_next _ _ V). lia.
    + intros i' L. rewrite (rm_next _ _ _ _ _ _ R) in L.
      destruct (Nat.lt_ge_cases i' (t_next t)) as [L'|G].
      * apply (rm_gone _ _ _ _ _ _ R). lia.
      * rewrite (rm_leaf _ _ _ _ _ _ R). destruct (decide _); [reflexivity|]. apply (inv_blank _ _ V). exact G.
    + exists m. split; apply R.
    + intros id' i'. rewrite (rm_ids _ _ _ _ _ _ R), lookup_delete_Some, (rm_leaf _ _ _ _ _ _ R). split.
      * intros [N E]. apply (inv_ids _ _ V) in E as [nk' E].
        destruct (decide (i' = i)) as [->|]; [|eauto]. rewrite Eli in E. injection E as -> _. contradiction.
      * intros [nk' E]. destruct (decide (i' = i)) as [->|N]; [discriminate|].
        assert (E' : t_ids t !! id' = Some i') by (apply (inv_ids _ _ V); eauto).
        split; [|exact E']. intros ->. congruence.
    + intros i' l. rewrite (rm_leaf _ _ _ _ _ _ R). destruct (decide _); [discriminate|]. apply (inv_leaf _ _ V).
    + assert (T : touched t t' (fun i' => i' = i \/ m < i' < t_next t)).
      { split.
        - intros i' Ni. rewrite (rm_leaf _ _ _ _ _ _ R), decide_False by tauto. reflexivity.
        - apply (rm_keep _ _ _ _ _ _ R). }
      intros k j s Q. pose proof (innerv_range _ _ _ _ _ (rm_shape _ _ _ _ _ _ R) Q) as [Rk _].
      assert (Nj : forall i', i' = i \/ m < i' < t_next t -> j <> anc i' (S k)).
      { intros i' P ->. rewrite (rm_blank _ _ _ _ _ _ R) in Q by (assumption || lia). discriminate. }
      rewrite (rm_keep _ _ _ _ _ _ R) in Q by exact Nj.
      destruct (inv_inner _ _ V _ _ _ Q) as (v & -> & O). exists v. split; [reflexivity|].
      eapply touched_store_ok; [exact T|exact Nj|exact O].
  - intros id' pk'. rewrite lookup_delete_Some, (A id' pk'). split.
    + intros [N [i' E]]. exists i'. rewrite (rm_leaf _ _ _ _ _ _ R).
      destruct (decide (i' = i)) as [->|]; [|exact E]. rewrite Eli in E. injection E as -> _. contradiction.
    + intros [i' E]. rewrite (rm_leaf _ _ _ _ _ _ R) in E. destruct (decide (i' = i)) as [->|N]; [discriminate|].
      split; [|eauto]. intros ->. assert (t_ids t !! id' = Some i') by (apply (inv_ids _ _ V); eauto). congruence.
Qed.

(** ** Updating a path *)
Record updated (t t' : tree) (id : member_id) (pk i h : nat) (vs : list version) : Prop := Updated {
  up_was : t_ids t !! id = Some i;
  up_next : t_next t' = t_next t;
  up_ids : t_ids t' = t_ids t;
  up_shape : shape t' h;
  up_leaf : forall i', leafv t' i' = if decide (i' = i) then Some (LeafNode id (SKey pk)) else leafv t i';
  up_len : length vs = h;
  up_inner : forall k j, innerv t' k j =
    if decide (k < h /\ j = anc i (S k)) then (fun v => [v]) <$> vs !! k else innerv t k j
}.

(** The tree that an update leaves behind. *)
Definition upd_tree (t : tree) (id : member_id) (pk i : nat) (vs : list version) : tree :=
  overlay (set_leaves t (<[i := Some (LeafNode id (SKey pk))]> (t_leaves t))) 0 i vs.

Lemma upd_tree_updated t h id pk i vs : Inv t h -> t_ids t !! id = Some i -> length vs = h ->
  updated t (upd_tree t id pk i vs) id pk i h vs.
Proof.
  intros V Ei Lv. pose proof (inv_shape _ _ V) as S. pose proof (inv_id_range _ _ _ _ V Ei) as Hi.
  unfold upd_tree. set (t1 := set_leaves t _).
  assert (Hl : i < length (t_leaves t)) by (rewrite (sh_leaves _ _ S); exact Hi).
  assert (S1 : shape t1 h).
  { destruct S. split; cbn [t1 set_leaves t_size t_leaves t_inner]; rewrite ?insert_length; assumption. }
  pose proof (overlay_same_outer t1 0 i vs) as SO.
  split.
  - exact Ei.
  - rewrite (so_next _ _ SO). reflexivity.
  - rewrite (so_ids _ _ SO). reflexivity.
  - eapply same_outer_shape; eauto.
  - intros i'. rewrite (same_outer_leafv _ _ _ SO). apply leafv_write. exact Hl.
  - exact Lv.
  - intros k j. rewrite (overlay_innerv t1 h) by (try exact S1; try (apply inr_leaf; exact Hi); cbn; lia).
    rewrite !Nat.sub_0_r. cbn [plus]. rewrite Lv.
    destruct (decide _) as [Q|Q], (decide _) as [Q'|Q']; try reflexivity; exfalso; [apply Q'|apply Q]; split; try lia; tauto.
Qed.

Lemma updated_nkey t t' id pk i h vs k j : updated t t' id pk i h vs -> j <> anc i k -> nkey t' k j = nkey t k j.
Proof.
  intros U N. destruct k as [|k]; cbn [nkey].
  - rewrite (up_leaf _ _ _ _ _ _ _ U), decide_False; [reflexivity|]. rewrite anc_0 in N. exact N.
  - rewrite (up_inner _ _ _ _ _ _ _ U), decide_False; [reflexivity|]. tauto.
Qed.
Lemma updated_nkey_anc t t' id pk i h vs k v : updated t t' id pk i h vs -> vs !! k = Some v ->
  nkey t' (S k) (anc i (S k)) = Some (v_pk v).
Proof.
  intros U L. cbn [nkey]. rewrite (up_inner _ _ _ _ _ _ _ U), decide_True.
  - rewrite L. reflexivity.
  - split; [|reflexivity]. rewrite <- (up_len _ _ _ _ _ _ _ U). eapply lookup_lt_Some; eauto.
Qed.
Lemma updated_nkey_leaf t t' id pk i h vs : updated t t' id pk i h vs -> nkey t' 0 i = Some pk.
Proof. intros U. cbn [nkey]. rewrite (up_leaf _ _ _ _ _ _ _ U), decide_True; reflexivity. Qed.

Lemma updated_touched t t' id pk i h vs : updated t t' id pk i h vs -> touched t t' (eq i).
Proof.
  intros U. split.
  - intros i' N. rewrite (up_leaf _ _ _ _ _ _ _ U), decide_False by congruence. reflexivity.
  - intros k j N. rewrite (up_inner _ _ _ _ _ _ _ U), decide_False; [reflexivity|].
    intros [_ Q]. exact (N i eq_refl Q).
Qed.

(** Each version written by an update is sealed from the path child below it. *)
Lemma updated_sealed t t' id pk i h vs rng rng' k v :
  updated t t' id pk i h vs -> enc_versions t h 0 i pk rng = Some (vs, rng') -> vs !! k = Some v ->
  exists eph, sealed t' k (anc i k) v eph /\
    ((forall k0 j0, ~ in_resolution t' k (sib (anc i k)) k0 j0) -> eph ∈ rng /\ (NoDup rng -> eph ∉ map v_pk vs)).
Proof.
  intros U E L. destruct (enc_versions_at _ _ _ _ _ _ _ _ _ _ E L) as (e & Ev & Hc & He). cbn [plus] in Ev, He.
  assert (NB : forall k0 j0, below k0 j0 k (sib (anc i k)) -> nkey t' k0 j0 = nkey t k0 j0).
  { intros k0 j0 B. eapply updated_nkey; [exact U|]. eapply not_anc_below; [exact B|]. apply sib_neq. }
  assert (K : nkey t' k (anc i k) = Some (v_encrypter v)).
  { destruct k as [|k].
    - rewrite anc_0, Hc. eapply updated_nkey_leaf; eauto.
    - destruct Hc as (u & Lu & ->). eapply updated_nkey_anc; eauto. }
  destruct (new_entries_sealed t' k (anc i k) (v_encrypter v) (v_pk v) e v K) as (eph & Sl & Hr).
  { rewrite (new_entries_ext t t') by exact NB. exact Ev. }
  exists eph. split; [exact Sl|]. intros N.
  assert (R : resn t' k (sib (anc i k)) = []).
  { destruct (resn t' k (sib (anc i k))) as [|[k0 j0] r] eqn:R; [reflexivity|].
    exfalso. apply (N k0 j0), resn_spec. rewrite R. left. }
  rewrite (Hr R). apply He. rewrite <- (resn_ext t t' k _ NB). exact R.
Qed.

Lemma updated_inv t t' h g id pk i vs rng rng' : Inv t h -> abs_group t g ->
  enc_versions t h 0 i pk rng = Some (vs, rng') -> updated t t' id pk i h vs ->
  Inv t' h /\ abs_group t' (<[id := pk]> g).
Proof.
  intros V A EV U. pose proof (up_was _ _ _ _ _ _ _ U) as Ei.
  destruct (proj1 (inv_ids _ _ V _ _) Ei) as [nk0 El0].
  pose proof (inv_leaf_lt _ _ _ _ V El0) as Lt.
  split.
  - split.
    + apply U.
    + rewrite (up_next _ _ _ _ _ _ _ U). apply V.
    + intros i' L. rewrite (up_next _ _ _ _ _ _ _ U) in L. rewrite (up_leaf _ _ _ _ _ _ _ U), decide_False by lia.
      apply (inv_blank _ _ V). exact L.
    + destruct (inv_last _ _ V) as (n & En & Hn). exists n. rewrite (up_next _ _ _ _ _ _ _ U). split; [exact En|].
      rewrite (up_leaf _ _ _ _ _ _ _ U). destruct (decide _); eauto.
    + intros id' i'. rewrite (up_ids _ _ _ _ _ _ _ U), (inv_ids _ _ V), (up_leaf _ _ _ _ _ _ _ U).
      destruct (decide (i' = i)) as [->|]; [|reflexivity]. rewrite El0. split.
      * intros [nk Q]. injection Q as <- _. eauto.
      * intros [nk Q]. injection Q as <- _. eauto.
    + intros i' l. rewrite (up_leaf _ _ _ _ _ _ _ U). destruct (decide _).
      * intros Q. injection Q as <-. cbn. eauto.
      * apply (inv_leaf _ _ V).
    + intros k j s Q. rewrite (up_inner _ _ _ _ _ _ _ U) in Q. destruct (decide _) as [[Hk ->]|N].
      * destruct (vs !! k) as [v|] eqn:L; [|discriminate]. injection Q as <-. exists v. split; [reflexivity|].
        destruct (updated_sealed _ _ _ _ _ _ _ _ _ _ _ U EV L) as (eph & Sl & _).
        exists (anc i k), eph. split; [symmetry; apply anc_S'|exact Sl].
      * pose proof (innerv_range _ _ _ _ _ (inv_shape _ _ V) Q) as [Hk _].
        destruct (inv_inner _ _ V _ _ _ Q) as (v & -> & O). exists v. split; [reflexivity|].
        eapply touched_store_ok; [eapply updated_touched; eauto| |exact O].
        intros ? <- ->. apply N. split; [lia|reflexivity].
  - intros id' pk'. rewrite lookup_insert_Some. split.
    + intros [[<- <-]|[N E]].
      * exists i. rewrite (up_leaf _ _ _ _ _ _ _ U), decide_True; reflexivity.
      * apply A in E as [i' E]. exists i'. rewrite (up_leaf _ _ _ _ _ _ _ U), decide_False; [exact E|].
        intros ->. rewrite El0 in E. injection E as -> _. contradiction.
    + intros [i' Q]. rewrite (up_leaf _ _ _ _ _ _ _ U) in Q. destruct (decide (i' = i)) as [->|N].
      * injection Q as -> ->. auto.
      * right. split; [|apply A; eauto]. intros ->.
        assert (t_ids t !! id' = Some i') by (apply (inv_ids _ _ V); eauto). congruence.
Qed.

(** [encrypt_path] as a function of the versions it creates. *)
Lemma encrypt_path_spec t h id i pk sks rng : Inv t h -> t_ids t !! id = Some i -> sks !! pk = Some pk ->
  encrypt_path t id pk sks rng =
    match enc_versions t h 0 i pk rng with
    | None => OutOfFuel
    | Some (vs, rng') =>
        Ok (upd_tree t id pk i vs, last_pk pk vs,
            PathChange id i (SKey pk) (path_of 0 i vs)
              (match nkey t 0 i with Some p => [p] | None => [] end ++
               concat (map (fun n => ikeys t n.1 n.2) (above 0 i h))),
            path_sks vs sks, rng')
    end.
Proof.
  intros V Ei Es. pose proof (inv_shape _ _ V) as S. pose proof (inv_id_range _ _ _ _ V Ei) as Hi.
  destruct (proj1 (inv_ids _ _ V _ _) Ei) as [nk0 El0].
  destruct (inv_leaf _ _ V _ _ El0) as [p0 Ep]. cbn in Ep. subst nk0.
  assert (K0 : nkey t 0 i = Some p0) by (cbn [nkey]; rewrite El0; reflexivity).
  unfold encrypt_path, node_key_for_id, leaf_index_for_id. rewrite Ei. cbn [ok_or rbind].
  rewrite leaf_to_tree_node. rewrite (node_key_nkey t h 0 i p0 S (proj2 (inr_leaf _ _) Hi) K0). cbn [rbind].
  assert (Hl : i < length (t_leaves t)) by (rewrite (sh_leaves _ _ S); exact Hi).
  rewrite write_leaf_ok by exact Hl. cbn [rbind]. rewrite Es. cbn [ok_or rbind].
  unfold upd_tree. set (t1 := set_leaves t _).
  assert (S1 : shape t1 h).
  { destruct S. split; cbn [t1 set_leaves t_size t_leaves t_inner]; rewrite ?insert_length; assumption. }
  assert (VL : forall i', leafv t1 i' = if decide (i' = i) then Some (LeafNode id (SKey pk)) else leafv t i').
  { intros. apply leafv_write. exact Hl. }
  assert (W1 : wfk t1).
  { split.
    - intros i' l. rewrite VL. destruct (decide _); [intros Q; injection Q as <-; cbn; eauto|apply (inv_leaf _ _ V)].
    - apply (inv_wfk _ _ V). }
  rewrite (encrypt_path_loop_spec _ _ h) by
    (try exact S1; try exact W1; try (apply inr_leaf; exact Hi);
     rewrite (sh_size _ _ S1); pose proof (complete_size_alt h); pose proof (pow2_gt h); lia).
  rewrite Nat.sub_0_r.
  rewrite (enc_versions_ext t t1).
  - destruct (enc_versions t h 0 i pk rng) as [[vs rng']|]; [|reflexivity]. cbn [rbind].
    rewrite K0. reflexivity.
  - intros d' k0 j0 L B. destruct k0 as [|k0]; cbn [nkey]; [|reflexivity].
    rewrite VL, decide_False; [reflexivity|]. intros ->.
    apply (below_sib_not_anc 0 i 0 i d' B); [lia|]. symmetry. apply anc_0.
Qed.

(** ** Decrypting the root secret *)
Record keyed (t : tree) : Prop := Keyed {
  ky_ne : forall k j, innerv t k j <> Some [];
  ky_ok : forall k j v, innerv t k j = Some [v] -> store_ok t k j v
}.
Lemma inv_keyed t h : Inv t h -> keyed t.
Proof.
  intros V. split; [apply (inv_wfk _ _ V)|]. intros k j v E.
  destruct (inv_inner _ _ V _ _ _ E) as (v' & Ev & O). injection Ev as ->. exact O.
Qed.

(** Every secret key is stored under its public key. *)
Definition sks_ok (sks : sk_map) : Prop := forall pk s, sks !! pk = Some s -> pub s = pk.

Lemma derive_comm a b : derive_symmetric_key a b = derive_symmetric_key b a.
Proof. unfold derive_symmetric_key, pub. rewrite Nat.min_comm, Nat.max_comm. reflexivity. Qed.

Lemma lookup_seen_last m pre x e : m !! x = Some e -> lookup_seen m (pre ++ [x]) = Some e.
Proof. intros E. unfold lookup_seen. rewrite foldl_app. cbn [foldl]. rewrite E. reflexivity. Qed.

Lemma version_decrypt_ok v ck sks pre x :
  sks !! ck = Some ck ->
  (v_encrypter v = ck /\ exists eph, v_sk v !! x = Some (encrypt_secret (v_pk v) (v_encrypter v) eph)) \/
  v_sk v !! x = Some (encrypt_secret (v_pk v) (v_encrypter v) ck) ->
  version_decrypt v (SKey ck) sks (pre ++ [x]) = Ok (v_pk v).
Proof.
  intros K H. unfold version_decrypt. cbn [nk_contains].
  destruct H as [[E (eph & L)]|L]; rewrite (lookup_seen_last _ _ _ _ L); cbn [ok_or rbind].
  - rewrite bool_decide_true by exact E. rewrite E, K. cbn [ok_or rbind].
    unfold try_encrypter_decrypt, sym_decrypt, encrypt_secret. cbn [es_paired es_key es_msg].
    rewrite decide_True by reflexivity. reflexivity.
  - destruct (bool_decide_reflect (v_encrypter v = ck)) as [E|N].
    + rewrite E, K. cbn [ok_or rbind].
      unfold try_encrypter_decrypt, sym_decrypt, encrypt_secret. cbn [es_paired es_key es_msg].
      rewrite decide_True by reflexivity. reflexivity.
    + unfold try_decrypt_encryption, encrypt_secret. cbn [es_paired]. rewrite K. cbn [ok_or rbind].
      unfold sym_decrypt. cbn [es_key es_msg]. rewrite decide_True by apply derive_comm. reflexivity.
Qed.

Lemma skip_up_spec fuel t h k j : shape t h -> (forall k j, innerv t k j <> Some []) ->
  inr h k j -> k < h -> is_Some (nkey t h 0) -> h - k <= S fuel ->
  exists d, skip_up fuel t (node k j) = Ok (node (k + d) (anc j d)) /\ k + d < h /\
    is_Some (nkey t (S (k + d)) (anc j (S d))) /\
    (forall d', 1 <= d' <= d -> nkey t (k + d') (anc j d') = None).
Proof.
  intros S NE. revert k j; induction fuel as [|f IH]; intros k j I L R F;
    cbn [skip_up]; rewrite parent_node;
    pose proof (inr_parent _ _ _ I L) as Ip;
    rewrite (should_skip_inner _ _ _ _ S Ip (NE _ _)); cbn [rbind].
  - assert (Datatypes.S k = h) as E by lia. rewrite E in *.
    rewrite (inr_root _ _ Ip). rewrite bool_decide_true by exact R. cbn [negb].
    exists 0. rewrite Nat.add_0_r, anc_0, E, anc_1. split; [reflexivity|]. split; [lia|].
    rewrite (inr_root _ _ Ip). split; [exact R|]. intros; lia.
  - destruct (nkey t (Datatypes.S k) (j / 2)) as [p|] eqn:K.
    + rewrite bool_decide_true by eauto. cbn [negb]. exists 0. rewrite Nat.add_0_r, anc_0, anc_1, K.
      split; [reflexivity|]. split; [lia|]. split; [eauto|]. intros; lia.
    + rewrite bool_decide_false by (intros [? ?]; discriminate). cbn [negb].
      assert (L' : Datatypes.S k < h).
      { destruct (decide (Datatypes.S k = h)) as [E|]; [|lia]. exfalso. rewrite E in *.
        rewrite (inr_root _ _ Ip) in K. rewrite K in R. destruct R; discriminate. }
      destruct (IH _ _ Ip L' R ltac:(lia)) as (d & E & Ld & Hs & Hn).
      exists (Datatypes.S d). rewrite E, anc_S. replace (k + Datatypes.S d) with (Datatypes.S k + d) by lia.
      split; [reflexivity|]. split; [exact Ld|]. rewrite (anc_S j (Datatypes.S d)). split; [exact Hs|].
      intros d' Hd'. destruct d' as [|d']; [lia|]. rewrite anc_S.
      replace (k + Datatypes.S d') with (Datatypes.S k + d') by lia.
      destruct d' as [|d'']; [rewrite anc_0, Nat.add_0_r; exact K|]. apply Hn. lia.
Qed.

(** Opening the parent of [(k + d, anc j d)] from the node [(k, j)], when the nodes in
    between hold no key. *)
Lemma open_parent t k j ck d v sks pre :
  store_ok t (k + d) (anc j (S d)) v -> nkey t k j = Some ck -> sks !! ck = Some ck ->
  (forall d', 1 <= d' <= d -> nkey t (k + d') (anc j d') = None) ->
  version_decrypt v (SKey ck) sks (pre ++ [node k j]) = Ok (v_pk v).
Proof.
  intros (c & eph & Ec & Sl) K Ks Hn. apply version_decrypt_ok; [exact Ks|].
  rewrite anc_S' in Ec. destruct (same_half (anc j d) c) as [E|E]; [auto| |].
  - (* the node itself is the encrypter *)
    left. assert (d = 0) as ->.
    { destruct d as [|d]; [reflexivity|]. exfalso. pose proof (sl_enc _ _ _ _ _ Sl) as Q.
      rewrite <- E, Hn in Q by lia. discriminate. }
    rewrite anc_0 in E. subst c. rewrite Nat.add_0_r in *.
    pose proof (sl_enc _ _ _ _ _ Sl) as Q. rewrite K in Q. injection Q as ->. split; [reflexivity|].
    exists eph. apply (sl_entries _ _ _ _ _ Sl). left. auto.
  - right. apply (sl_entries _ _ _ _ _ Sl). right. exists k, j, ck. split; [|auto].
    split; [rewrite <- E; apply below_anc|]. split; [eauto|].
    intros k1 j1 L1 B1 B2. destruct B1 as [_ <-]. change (nkey t k1 (anc j (k1 - k)) = None).
    replace k1 with (k + (k1 - k)) at 1 by lia. apply Hn. destruct B2. lia.
Qed.

Lemma decrypt_loop_spec fuel t h k j ck pre sks last rk :
  shape t h -> keyed t -> inr h k j -> nkey t k j = Some ck -> sks !! ck = Some ck -> sks_ok sks ->
  nkey t h 0 = Some rk -> (k = h -> last = Some rk) -> h - k <= fuel ->
  exists sks', decrypt_loop fuel t (node k j) (SKey ck) (pre ++ [node k j]) sks last = (sks', Ok (Some rk)) /\
    sks_ok sks' /\ sks ⊆ sks' /\
    (forall pk, is_Some (sks' !! pk) -> is_Some (sks !! pk) \/
       exists k' j', k < k' /\ j' = anc j (k' - k) /\ nkey t k' j' = Some pk).
Proof.
  intros S KY. revert k j ck pre sks last; induction fuel as [|f IH];
    intros k j ck pre sks last I K Ks SK R HL F; cbn [decrypt_loop]; rewrite (is_root_node _ _ _ _ S).
  - assert (k = h) as E by (destruct I; lia). subst k. rewrite (inr_root _ _ I), bool_decide_true by auto.
    exists sks. rewrite HL by reflexivity. split; [reflexivity|]. split; [exact SK|].
    split; [reflexivity|]. auto.
  - destruct (decide (k = h)) as [E|N].
    { subst k. rewrite (inr_root _ _ I), bool_decide_true by auto.
      exists sks. rewrite HL by reflexivity. split; [reflexivity|]. split; [exact SK|].
      split; [reflexivity|]. auto. }
    rewrite bool_decide_false by (intros [? _]; contradiction).
    assert (L : k < h) by (destruct I; lia).
    destruct (skip_up_spec (t_size t) t h k j S (ky_ne _ KY) I L) as (d & E & Ld & [pp Hp] & Hn).
    { eauto. }
    { rewrite (sh_size _ _ S). pose proof (complete_size_alt h). pose proof (pow2_gt h). lia. }
    rewrite E.
    assert (Ia : inr h (k + d) (anc j d)).
    { split; [lia|]. apply anc_lt. replace (d + (h - (k + d))) with (h - k) by lia. apply I. }
    pose proof (inr_parent _ _ _ Ia Ld) as Ip. rewrite <- anc_S' in Ip.
    pose proof (proj1 (nkey_inner _ _ _ _) Hp) as (v & Ev & <-).
    unfold maybe_decrypt_parent_key. rewrite parent_node, <- anc_S'.
    rewrite (inner_at_shape _ _ _ _ S) by apply Ip. rewrite Ev.
    cbn [store_node_key map nk_of_list].
    assert (DEC : exists sks1, (match sks !! v_pk v with
        | Some secret => (sks, Ok (Some secret))
        | None => match store_decrypt [v] (SKey ck) sks (pre ++ [node k j]) with
                  | Ok secret => (<[v_pk v := secret]> sks, Ok (Some secret))
                  | Err e => (sks, Err e) | Panic => (sks, Panic) | OutOfFuel => (sks, OutOfFuel)
                  end
        end) = (sks1, Ok (Some (v_pk v))) /\ sks_ok sks1 /\ sks ⊆ sks1 /\ sks1 !! v_pk v = Some (v_pk v) /\
        (forall pk, is_Some (sks1 !! pk) -> is_Some (sks !! pk) \/ pk = v_pk v)).
    { destruct (sks !! v_pk v) as [s|] eqn:Es.
      - pose proof (SK _ _ Es) as Q. unfold pub in Q. subst s. exists sks. repeat split; auto.
      - unfold store_decrypt. cbn [has_conflict length Nat.ltb Nat.leb].
        rewrite (open_parent t k j ck d v sks pre) by (auto; apply (ky_ok _ KY); exact Ev).
        eexists; split; [reflexivity|]. split; [|split; [|split]].
        + intros pk s. rewrite lookup_insert_Some. intros [[<- <-]|[_ Q]]; [reflexivity|auto].
        + apply insert_subseteq. exact Es.
        + apply lookup_insert.
        + intros pk [s Q]. apply lookup_insert_Some in Q as [[<- _]|[_ Q]]; eauto. }
    destruct DEC as (sks1 & -> & SK1 & Sub1 & K1 & Only1).
    rewrite (node_key_nkey _ _ _ _ _ S Ip Hp).
    destruct (IH (Datatypes.S (k + d)) (anc j (Datatypes.S d)) (v_pk v) (pre ++ [node k j]) sks1 (Some (v_pk v)))
      as (sks' & E' & SK' & Sub' & Only'); auto; try lia.
    { intros Eh. f_equal. rewrite Eh in *. rewrite (inr_root _ _ Ip) in Hp. congruence. }
    exists sks'. split; [exact E'|]. split; [exact SK'|]. split; [etransitivity; eauto|].
    intros pk Hpk. destruct (Only' pk Hpk) as [H1|(k' & j' & L' & -> & H')].
    + destruct (Only1 pk H1) as [?| ->]; [auto|]. right. exists (Datatypes.S (k + d)), (anc j (Datatypes.S d)).
      split; [lia|]. split; [f_equal; lia|exact Hp].
    + right. exists k', (anc j (k' - k)). split; [lia|]. split; [reflexivity|].
      rewrite anc_anc in H'. replace (k' - k) with (Datatypes.S d + (k' - Datatypes.S (k + d))) by lia. exact H'.
Qed.

Lemma has_root_key_spec t h : shape t h -> (forall k j, innerv t k j <> Some []) ->
  has_root_key t = Ok (bool_decide (is_Some (nkey t h 0))).
Proof.
  intros S NE. pose proof (sh_h _ _ S). destruct h as [|h]; [lia|]. unfold has_root_key. cbv zeta.
  rewrite (sh_size _ _ S), root_complete, is_leaf_node_S.
  rewrite (inner_at_shape _ _ _ _ S) by (rewrite ?Nat.sub_diag, ?Nat.pow_0_r; lia). cbn [rbind nkey].
  specialize (NE h 0). destruct (innerv t h 0) as [[|v [|v' s]]|].
  - contradiction.
  - rewrite bool_decide_true by eauto. reflexivity.
  - rewrite bool_decide_false by (intros [? ?]; discriminate). reflexivity.
  - rewrite bool_decide_false by (intros [? ?]; discriminate). reflexivity.
Qed.

Lemma decrypt_tree_secret_spec t h owner i pk sks :
  shape t h -> keyed t -> t_ids t !! owner = Some i -> i < 2 ^ h ->
  leafv t i = Some (LeafNode owner (SKey pk)) ->
  sks_ok sks -> sks !! pk = Some pk ->
  match nkey t h 0 with
  | None => decrypt_tree_secret t owner sks = (sks, Err ENoRootKey)
  | Some rk => exists sks', decrypt_tree_secret t owner sks = (sks', Ok rk) /\ sks_ok sks' /\ sks ⊆ sks' /\
      (forall p, is_Some (sks' !! p) -> is_Some (sks !! p) \/ exists k, 0 < k /\ nkey t k (anc i k) = Some p)
  end.
Proof.
  intros S KY Ei Hi El SK K. unfold decrypt_tree_secret. rewrite Ei.
  rewrite (has_root_key_spec _ _ S (ky_ne _ KY)).
  destruct (nkey t h 0) as [rk|] eqn:R.
  - rewrite bool_decide_true by eauto. rewrite (leaf_at_shape _ _ _ S Hi), El. cbn [l_pk].
    rewrite leaf_to_tree_node.
    destruct (decrypt_loop_spec (t_size t) t h 0 i pk [] sks None rk) as (sks' & E & A & B & C); auto.
    + apply inr_leaf. exact Hi.
    + cbn [nkey]. rewrite El. reflexivity.
    + intros <-. pose proof (sh_h _ _ S). lia.
    + rewrite (sh_size _ _ S). pose proof (complete_size_alt h). pose proof (pow2_gt h). lia.
    + cbn [app] in E. rewrite E. exists sks'. split; [reflexivity|]. split; [exact A|]. split; [exact B|].
      intros p Hp. destruct (C p Hp) as [|(k' & j' & L & -> & Q)]; [auto|]. right. exists k'.
      rewrite Nat.sub_0_r in Q. auto.
  - rewrite bool_decide_false by (intros [? ?]; discriminate). reflexivity.
Qed.
