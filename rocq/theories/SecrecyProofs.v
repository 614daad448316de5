(** Secrecy of the current keys of the tree. *)
From Coq Require Import Arith Lia.
From stdpp Require Import base list gmap.
From Verif Require Import ResModel KeysModel TreeModel TreeMathModel TreeMathSpec TreeMathProofs TreeSpec TreeOps TreeView TreeProofs TreeInv TreeRun SecrecySpec.

Definition issued (hist : list tree_op) : list secret_key := concat (map op_rng hist).

Lemma issued_in hist s : s ∈ issued hist <-> exists n op, hist !! n = Some op /\ s ∈ op_rng op.
Proof.
  unfold issued. rewrite elem_of_list_In, in_concat. split.
  - intros (l & Hl & Hs). apply in_map_iff in Hl as (op & <- & Hop).
    apply elem_of_list_In, elem_of_list_lookup in Hop as [n Hn]. exists n, op. split; [exact Hn|].
    apply elem_of_list_In. exact Hs.
  - intros (n & op & L & Hs). exists (op_rng op). split.
    + apply in_map. apply elem_of_list_In. eapply elem_of_list_lookup_2; eauto.
    + apply elem_of_list_In. exact Hs.
Qed.
Lemma issued_snoc hist op : issued (hist ++ [op]) = issued hist ++ op_rng op.
Proof. unfold issued. rewrite map_app, concat_app. cbn. rewrite app_nil_r. reflexivity. Qed.

Lemma issued_unique hist n n' op op' s : NoDup (issued hist) ->
  hist !! n = Some op -> hist !! n' = Some op' -> s ∈ op_rng op -> s ∈ op_rng op' -> n = n'.
Proof.
  revert n n'; induction hist as [|o hist IH]; intros n n' N L L' H H'; [discriminate|].
  unfold issued in N. cbn [map concat] in N. apply NoDup_app in N as (N1 & N2 & N3).
  destruct n as [|n], n' as [|n']; cbn in L, L'.
  - reflexivity.
  - exfalso. injection L as ->. apply (N2 s H). apply issued_in. eauto.
  - exfalso. injection L' as ->. apply (N2 s H'). apply issued_in. eauto.
  - f_equal. eapply IH; eauto.
Qed.

Definition overrides (op : tree_op) (id : member_id) : Prop :=
  op = ORemove id \/ exists sk rng, op = OUpdate id sk rng.

Lemma superseded_snoc hist op n o : hist !! n = Some o -> superseded (hist ++ [op]) n ->
  superseded hist n \/ overrides op (op_member o).
Proof.
  intros L (o' & n' & op' & L1 & Lt & L2 & H).
  rewrite lookup_app_l in L1 by (eapply lookup_lt_Some; eauto). rewrite L in L1. injection L1 as <-.
  destruct (decide (n' < length hist)) as [Ln|Ln].
  - rewrite lookup_app_l in L2 by exact Ln. left. exists o, n', op'. auto.
  - rewrite lookup_app_r in L2 by lia. destruct (n' - length hist) as [|m]; [|discriminate].
    injection L2 as <-. right. exact H.
Qed.
Lemma superseded_last hist op : ~ superseded (hist ++ [op]) (length hist).
Proof.
  intros (o & n' & op' & _ & Lt & L & _). apply lookup_lt_Some in L. rewrite app_length in L. cbn in L. lia.
Qed.

Definition good (t : tree) (pcs : list path_change) (rng : list nat) (k j a : nat) : Prop :=
  (exists k0 j0, k0 <= k /\ below k0 j0 (S k) j /\ nkey t k0 j0 = Some a) \/
  (a ∈ rng /\ forall e, published pcs e -> es_msg e <> a).

Definition node_si (t : tree) (pcs : list path_change) (hist : list tree_op) (k j : nat) (v : version) : Prop :=
  exists n id sk rng i, hist !! n = Some (OUpdate id sk rng) /\ ~ superseded hist n /\
    t_ids t !! id = Some i /\ j = anc i (S k) /\ v_pk v ∈ rng /\
    forall e, published pcs e -> es_msg e = v_pk v ->
      exists a b, es_key e = derive_symmetric_key a b /\ good t pcs rng k j a /\ good t pcs rng k j b.

Record SI (t : tree) (g : group) (pcs : list path_change) (hist : list tree_op) : Prop := MkSI {
  si_msg : forall e, published pcs e -> es_msg e ∈ issued hist;
  si_node : forall k j v, innerv t k j = Some [v] -> node_si t pcs hist k j v;
  si_leaf : forall m p, g !! m = Some p -> exists op, op ∈ hist /\ op_leaf_secret op p
}.

Lemma node_si_mono t t' P pcs pcs' hist op k j v :
  touched t t' P -> (forall i, P i -> j <> anc i (S k)) ->
  (forall id i, t_ids t !! id = Some i -> j = anc i (S k) -> t_ids t' !! id = Some i /\ ~ overrides op id) ->
  (forall e, published pcs' e -> published pcs e \/ es_msg e ∉ issued hist) ->
  node_si t pcs hist k j v -> node_si t' pcs' (hist ++ [op]) k j v.
Proof.
  intros T NP Hid Hpub (n & id & sk & rng & i & L & Ns & Ei & Ej & Hv & He).
  destruct (Hid _ _ Ei Ej) as [Ei' No].
  exists n, id, sk, rng, i. split; [rewrite lookup_app_l by (eapply lookup_lt_Some; eauto); exact L|].
  split; [intros S'; destruct (superseded_snoc _ _ _ _ L S'); [auto|cbn in *; contradiction]|].
  split; [exact Ei'|]. split; [exact Ej|]. split; [exact Hv|].
  assert (Iss : forall a, a ∈ rng -> a ∈ issued hist) by (intros; apply issued_in; eauto).
  assert (G : forall a, good t pcs rng k j a -> good t' pcs' rng k j a).
  { intros a [(k0 & j0 & Lk & B & K)|[Ha Hm]].
    - left. exists k0, j0. split; [exact Lk|]. split; [exact B|].
      rewrite (touched_nkey t t' P); [exact K|exact T|]. intros i' Pi. eapply not_anc_below; [exact B|]. apply NP. exact Pi.
    - right. split; [exact Ha|]. intros e Pe. destruct (Hpub e Pe) as [Pe'|Nm]; [auto|].
      intros Q. apply Nm. rewrite Q. auto. }
  intros e Pe Me. destruct (Hpub e Pe) as [Pe'|Nm].
  - destruct (He e Pe' Me) as (a & b & Ek & Ga & Gb). exists a, b. auto.
  - exfalso. apply Nm. rewrite Me. auto.
Qed.

Lemma published_app p1 p2 e : published (p1 ++ p2) e <-> published p1 e \/ published p2 e.
Proof.
  split.
  - intros (pc & i & st & v & x & H & R). apply elem_of_app in H as [H|H]; [left|right]; exists pc, i, st, v, x; auto.
  - intros [(pc & i & st & v & x & H & R)|(pc & i & st & v & x & H & R)]; exists pc, i, st, v, x;
      (split; [apply elem_of_app; auto|exact R]).
Qed.
Lemma published_path id i nk vs rem e : published [PathChange id i nk (path_of 0 i vs) rem] e <->
  exists k v x, vs !! k = Some v /\ v_sk v !! x = Some e.
Proof.
  split.
  - intros (pc & ix & st & v & x & H & Hp & Hv & He). apply elem_of_list_singleton in H as ->.
    cbn [pc_path] in Hp. apply elem_of_list_lookup in Hp as [k Hk].
    assert (Lk : k < length vs) by (rewrite <- (path_of_length 0 i vs); eapply lookup_lt_Some; eauto).
    destruct (lookup_lt_is_Some_2 _ _ Lk) as [v' L']. rewrite (path_of_lookup _ _ _ _ L') in Hk.
    injection Hk as _ <-. apply elem_of_list_singleton in Hv as ->. eauto.
  - intros (k & v & x & L & E). exists (PathChange id i nk (path_of 0 i vs) rem), (node k (anc i (S k))), [v], v, x.
    split; [left|]. split; [|split; [left|exact E]]. cbn [pc_path]. eapply elem_of_list_lookup_2, path_of_lookup; eauto.
Qed.

Lemma below_anc_S i k : below k (anc i k) (S k) (anc i (S k)).
Proof. split; [lia|]. replace (S k - k) with 1 by lia. rewrite anc_S', Nat.pow_1_r. reflexivity. Qed.
Lemma below_sib_S i k : below k (sib (anc i k)) (S k) (anc i (S k)).
Proof. split; [lia|]. replace (S k - k) with 1 by lia. rewrite anc_S', Nat.pow_1_r. apply sib_div2. Qed.

Lemma step_si t h g op t' o pcs hist :
  Inv t h -> abs_group t g -> step_ok t h g op t' o -> SI t g pcs hist ->
  NoDup (issued (hist ++ [op])) ->
  SI t' (spec_step g op) (pcs ++ match o with Some pc => [pc] | None => [] end) (hist ++ [op]).
Proof.
  intros V A St [M N L] ND. rewrite issued_snoc in ND. apply NoDup_app in ND as (ND1 & ND2 & ND3).
  assert (M' : forall e, published pcs e -> es_msg e ∈ issued (hist ++ [op])).
  { intros e Pe. rewrite issued_snoc. apply elem_of_app. left. auto. }
  assert (Lf : forall m p, spec_step g op !! m = Some p -> exists op', op' ∈ hist ++ [op] /\ op_leaf_secret op' p).
  { intros m p Q. assert (Old : g !! m = Some p -> exists op', op' ∈ hist ++ [op] /\ op_leaf_secret op' p).
    { intros Q'. destruct (L _ _ Q') as (op' & H1 & H2). exists op'. split; [apply elem_of_app; auto|exact H2]. }
    destruct op as [id pk|id|id sk rng]; cbn [spec_step] in Q.
    - destruct (decide _); [auto|]. apply lookup_insert_Some in Q as [[<- <-]|[_ Q]]; [|auto].
      exists (OAdd id pk). split; [apply elem_of_app; right; left|reflexivity].
    - apply lookup_delete_Some in Q as [_ Q]. auto.
    - apply lookup_insert_Some in Q as [[<- <-]|[_ Q]]; [|auto].
      exists (OUpdate id sk rng). split; [apply elem_of_app; right; left|reflexivity]. }
  assert (Mem : forall id i, t_ids t !! id = Some i -> is_Some (g !! id)).
  { intros id i Q. eapply abs_ids; eauto. }
  destruct St as [op Es Nu Nr Na | id pk t' i h' Ng Hh D | id i m t' Hg R | id sk rng i vs rng' Ei EV U];
    rewrite ?app_nil_r.
  - split; [exact M'| |exact Lf].
    intros k j v E. apply (node_si_mono t t (fun _ => False) pcs); auto.
    + split; auto.
    + intros id i Ei _. split; [exact Ei|]. intros [->|(sk & rng & ->)].
      * destruct (Mem _ _ Ei) as [p Hp]. rewrite (Nr id eq_refl) in Hp. discriminate.
      * eapply Nu; reflexivity.
  - split; [exact M'| |exact Lf].
    assert (T : touched t t' (eq i)).
    { split.
      - intros i' Ni. rewrite (ad_leaf _ _ _ _ _ _ D), decide_False by congruence. reflexivity.
      - intros k j Nj. rewrite (ad_inner _ _ _ _ _ _ D), decide_False; [reflexivity|].
        intros [_ Q]. exact (Nj i eq_refl Q). }
    intros k j v E. pose proof (innerv_range _ _ _ _ _ (ad_shape _ _ _ _ _ _ D) E) as [Hk _].
    assert (Nj : forall i', i = i' -> j <> anc i' (S k)).
    { intros ? <- ->. rewrite (ad_inner _ _ _ _ _ _ D), decide_True in E by (split; [lia|reflexivity]). discriminate. }
    apply (node_si_mono t t' (eq i) pcs); auto.
    + intros id' i' Ei' _. split.
      * rewrite (ad_ids _ _ _ _ _ _ D). rewrite lookup_insert_ne; [exact Ei'|]. intros <-.
        destruct (Mem _ _ Ei'). congruence.
      * intros [Q|(? & ? & Q)]; discriminate.
    + apply N. rewrite <- (to_inner _ _ _ T) by exact Nj. exact E.
  - split; [exact M'| |exact Lf].
    assert (T : touched t t' (fun i' => i' = i \/ m < i' < t_next t)).
    { split.
      - intros i' Ni. rewrite (rm_leaf _ _ _ _ _ _ R), decide_False by tauto. reflexivity.
      - apply (rm_keep _ _ _ _ _ _ R). }
    intros k j v E. pose proof (innerv_range _ _ _ _ _ (rm_shape _ _ _ _ _ _ R) E) as [Hk _].
    assert (Nj : forall i', i' = i \/ m < i' < t_next t -> j <> anc i' (S k)).
    { intros i' Pi ->. rewrite (rm_blank _ _ _ _ _ _ R) in E by (assumption || lia). discriminate. }
    eapply (node_si_mono t t' _ pcs); eauto.
    + intros id' i' Ei' Ej.
      assert (id <> id').
      { intros <-. rewrite (rm_was _ _ _ _ _ _ R) in Ei'. injection Ei' as <-. apply (Nj i); auto. }
      split.
      * rewrite (rm_ids _ _ _ _ _ _ R), lookup_delete_ne by assumption. exact Ei'.
      * intros [Q|(? & ? & Q)]; [injection Q as ->; contradiction|discriminate].
    + apply N. rewrite <- (rm_keep _ _ _ _ _ _ R) by exact Nj. exact E.
  - set (t' := upd_tree t id sk i vs) in *.
    set (pc := PathChange id i (SKey sk) _ _).
    cbn [op_rng] in *.
    assert (PR : forall v, v ∈ vs -> v_pk v ∈ rng) by (apply (enc_versions_rng _ _ _ _ _ _ _ _ EV)).
    assert (PN : NoDup (map v_pk vs)) by (apply (enc_versions_rng _ _ _ _ _ _ _ _ EV); exact ND3).
    (* the messages of the new ciphertexts *)
    assert (New : forall e, published [pc] e -> exists k v x, vs !! k = Some v /\ v_sk v !! x = Some e /\ es_msg e = v_pk v /\ es_msg e ∈ rng).
    { intros e Pe. apply published_path in Pe as (k & v & x & Lk & Lx). exists k, v, x.
      destruct (updated_sealed _ _ _ _ _ _ _ _ _ _ _ U EV Lk) as (eph & Sl & _).
      assert (Me : es_msg e = v_pk v).
      { destruct (proj1 (sl_entries _ _ _ _ _ Sl x e) Lx) as [[_ Q]|(k0 & j0 & p0 & _ & _ & _ & Q)];
          rewrite Q; reflexivity. }
      rewrite Me. split; [exact Lk|]. split; [exact Lx|]. split; [reflexivity|].
      apply PR. eapply elem_of_list_lookup_2; eauto. }
    split; [|  |exact Lf].
    + intros e Pe. apply published_app in Pe as [Pe|Pe]; [auto|].
      destruct (New e Pe) as (_ & _ & _ & _ & _ & _ & Q). rewrite issued_snoc. apply elem_of_app. right. exact Q.
    + intros k j v E. rewrite (up_inner _ _ _ _ _ _ _ U) in E. destruct (decide _) as [[Hk ->]|Nd].
      * destruct (vs !! k) as [v'|] eqn:Lk; [|discriminate]. injection E as ->.
        destruct (updated_sealed _ _ _ _ _ _ _ _ _ _ _ U EV Lk) as (eph & Sl & Heph).
        exists (length hist), id, sk, rng, i.
        split; [rewrite lookup_app_r, Nat.sub_diag by lia; reflexivity|].
        split; [apply superseded_last|]. split; [rewrite (up_ids _ _ _ _ _ _ _ U); exact Ei|].
        split; [reflexivity|]. split; [apply PR; eapply elem_of_list_lookup_2; eauto|].
        intros e Pe Me. apply published_app in Pe as [Pe|Pe].
        { exfalso. apply (ND2 (es_msg e)); [auto|]. rewrite Me. apply PR. eapply elem_of_list_lookup_2; eauto. }
        destruct (New e Pe) as (k1 & v1 & x & Lk1 & Lx & Me1 & _).
        assert (k1 = k) as ->.
        { apply (NoDup_lookup (map v_pk vs) _ _ (v_pk v)); [exact PN| |]; rewrite list_lookup_fmap.
          - rewrite Lk1. cbn. congruence.
          - rewrite Lk. reflexivity. }
        rewrite Lk in Lk1. injection Lk1 as <-.
        assert (Ge : good t' (pcs ++ [pc]) rng k (anc i (S k)) (v_encrypter v)).
        { left. exists k, (anc i k). split; [lia|]. split; [apply below_anc_S|apply Sl]. }
        assert (Gr : forall k0 j0 p, in_resolution t' k (sib (anc i k)) k0 j0 -> nkey t' k0 j0 = Some p ->
           good t' (pcs ++ [pc]) rng k (anc i (S k)) p).
        { intros k0 j0 p R K. left. exists k0, j0. split; [destruct R as [[? _] _]; assumption|].
          split; [|exact K]. eapply below_trans; [apply R|apply below_sib_S]. }
        apply (sl_entries _ _ _ _ _ Sl) in Lx as [[_ ->]|(k0 & j0 & p & R & K & _ & ->)].
        -- exists (v_encrypter v), eph. split; [reflexivity|]. split; [exact Ge|].
           destruct (resn t' k (sib (anc i k))) as [|[k0 j0] r] eqn:Rn.
           ++ right. destruct Heph as [He1 He2].
              { intros k0 j0 R. apply resn_spec in R. rewrite Rn in R. inversion R. }
              split; [exact He1|]. intros e' Pe' Q. apply published_app in Pe' as [Pe'|Pe'].
              ** apply (ND2 (es_msg e')); [auto|]. rewrite Q. exact He1.
              ** destruct (New e' Pe') as (k2 & v2 & x2 & Lk2 & _ & Me2 & _). apply (He2 ND3).
                 rewrite <- Q, Me2. apply elem_of_list_fmap. exists v2. split; [reflexivity|].
                 eapply elem_of_list_lookup_2; eauto.
           ++ destruct (sl_eph _ _ _ _ _ Sl k0 j0) as (k1 & j1 & R1 & K1).
              { apply resn_spec. rewrite Rn. left. }
              eapply Gr; eauto.
        -- exists (v_encrypter v), p. split; [reflexivity|]. split; [exact Ge|]. eapply Gr; eauto.
      * pose proof (innerv_range _ _ _ _ _ (inv_shape _ _ V) E) as [Hk _].
        assert (Nj : forall i', i = i' -> j <> anc i' (S k)).
        { intros ? <- ->. apply Nd. split; [lia|reflexivity]. }
        apply (node_si_mono t t' (eq i) pcs); auto.
        -- eapply updated_touched; eauto.
        -- intros id' i' Ei' Ej. rewrite (up_ids _ _ _ _ _ _ _ U). split; [exact Ei'|].
           intros [Q|(sk' & rng'' & Q)]; [discriminate|]. injection Q as <- _ _.
           rewrite Ei in Ei'. injection Ei' as <-. apply (Nj i); auto.
        -- intros e Pe. apply published_app in Pe as [Pe|Pe]; [auto|]. right.
           destruct (New e Pe) as (_ & _ & _ & _ & _ & _ & Q). intros Q'. exact (ND2 _ Q' Q).
Qed.

Lemma reachable_si id pk ops t pcs : reachable id pk ops t pcs -> NoDup (issued (OAdd id pk :: ops)) ->
  exists h, Inv t h /\ abs_group t (fold_left spec_step ops {[ id := pk ]}) /\
    SI t (fold_left spec_step ops {[ id := pk ]}) pcs (OAdd id pk :: ops).
Proof.
  revert t pcs; induction ops as [|op ops IH] using rev_ind; intros t pcs (t0 & E0 & E) ND.
  - destruct (tree_new_spec id pk) as (t0' & E0' & _ & _ & _ & _ & Hin).
    destruct (tree_new_inv id pk) as (t0'' & E0'' & V & A).
    rewrite E0' in E0. injection E0 as <-. rewrite E0' in E0''. injection E0'' as <-.
    cbn [run] in E. injection E as <- <-. exists 1. split; [exact V|]. split; [exact A|]. cbn [fold_left]. split.
    + intros e (pc & ? & ? & ? & ? & H & _). inversion H.
    + intros k j v. rewrite Hin. discriminate.
    + intros m p Q. apply lookup_singleton_Some in Q as [<- <-]. exists (OAdd id pk). split; [left|reflexivity].
  - apply run_snoc in E as (t1 & pcs1 & o & R & St & ->).
    rewrite app_comm_cons in ND.
    destruct (IH t1 pcs1) as (h & V & A & Si).
    { exists t0. auto. }
    { rewrite issued_snoc in ND. apply NoDup_app in ND. tauto. }
    rewrite fold_left_app. cbn [fold_left].
    destruct (op_step_inv _ _ _ _ _ _ V A St) as (h' & _ & V' & A' & SO).
    exists h'. split; [exact V'|]. split; [exact A'|].
    rewrite app_comm_cons. exact (step_si t1 h _ op t o pcs1 _ V A SO Si ND).
Qed.

(** The secrets introduced by superseded operations. *)
Definition superseded_secret (hist : list tree_op) (s : secret_key) : Prop :=
  exists n op, hist !! n = Some op /\ superseded hist n /\ op_secret op s.

Lemma derive_endpoints s p a b : derive_symmetric_key s p = derive_symmetric_key a b -> s = a \/ s = b.
Proof. unfold derive_symmetric_key, pub. intros E. injection E as E1 E2. lia. Qed.

Lemma current_keys_secret t h g pcs hist (K : secret_key -> Prop) :
  Inv t h -> abs_group t g -> SI t g pcs hist -> fresh_history hist ->
  (forall s, K s -> superseded_secret hist s) -> (forall m p, g !! m = Some p -> ~ K p) ->
  forall k j p, nkey t k j = Some p -> ~ derivable K (published pcs) p.
Proof.
  intros V A [M N L] [F1 F2] HK HL.
  assert (KI : forall s n op, K s -> hist !! n = Some op -> ~ superseded hist n -> s ∈ op_rng op -> False).
  { intros s n op Ks Ln Ns Hs. destruct (HK s Ks) as (n' & op' & Ln' & Ns' & [Lf|Hs']).
    - apply (F2 op' s); [eapply elem_of_list_lookup_2; eauto|exact Lf|]. apply issued_in. eauto.
    - assert (n = n') as ->; [|contradiction]. eapply issued_unique; eauto. }
  assert (C : forall s, derivable K (published pcs) s ->
    (exists k j, nkey t k j = Some s) \/
    (exists n op, hist !! n = Some op /\ ~ superseded hist n /\ s ∈ op_rng op /\ forall e, published pcs e -> es_msg e <> s) ->
    False).
  { intros s D. induction D as [s Ks|e s p Pe D IH Ek]; intros Cur.
    - destruct Cur as [(k & j & Kk)|(n & op & Ln & Ns & Hs & _)]; [|eauto].
      destruct k as [|k].
      + apply nkey_leaf_inv in Kk as [id El]. apply (HL id s); [apply A; eauto|exact Ks].
      + apply nkey_inner in Kk as (v & Ev & <-).
        destruct (N _ _ _ Ev) as (n & id & sk & rng & i & Ln & Ns & _ & _ & Hv & _). eapply KI; eauto.
    - destruct Cur as [(k & j & Kk)|(n & op & Ln & Ns & Hs & Hm)]; [|eapply Hm; eauto].
      destruct k as [|k].
      + apply nkey_leaf_inv in Kk as [id El].
        destruct (L id (es_msg e)) as (op & Hop & Lf); [apply A; eauto|].
        apply (F2 op (es_msg e) Hop Lf). apply M. exact Pe.
      + apply nkey_inner in Kk as (v & Ev & Em).
        destruct (N _ _ _ Ev) as (n & id & sk & rng & i & Ln & Ns & _ & _ & Hv & He).
        destruct (He e Pe (eq_sym Em)) as (a & b & Ek' & Ga & Gb). rewrite Ek in Ek'.
        assert (G : good t pcs rng k j s) by (destruct (derive_endpoints _ _ _ _ Ek') as [->| ->]; assumption).
        apply IH. destruct G as [(k0 & j0 & _ & _ & K0)|[Hs Hm]]; [left; eauto|].
        right. exists n, (OUpdate id sk rng). auto. }
  intros k j p Kp D. apply (C p D). left. eauto.
Qed.

(** A member that is not in the group: everything about it is superseded. *)
Lemma absent_superseded hist g0 m n op :
  fold_left spec_step hist g0 !! m = None -> hist !! n = Some op -> op_member op = m ->
  (forall id, op <> ORemove id) -> superseded hist n.
Proof.
  revert n; induction hist as [|o hist IH] using rev_ind; intros n Hg Ln Em Nr; [discriminate|].
  rewrite fold_left_app in Hg. cbn [fold_left] in Hg.
  destruct (decide (n < length hist)) as [L|L].
  - rewrite lookup_app_l in Ln by exact L.
    destruct (fold_left spec_step hist g0 !! m) as [p|] eqn:Hp.
    + destruct o as [id pk|id|id sk rng]; cbn [spec_step] in Hg.
      * destruct (decide _); [congruence|]. apply lookup_insert_None in Hg as [? _]. congruence.
      * destruct (decide (id = m)) as [->|Ne]; [|rewrite lookup_delete_ne in Hg by exact Ne; congruence].
        exists op, (length hist), (ORemove m). split; [rewrite lookup_app_l by exact L; exact Ln|].
        split; [exact L|]. rewrite lookup_app_r, Nat.sub_diag by lia. split; [reflexivity|]. left. congruence.
      * apply lookup_insert_None in Hg as [? _]. congruence.
    + destruct (IH n eq_refl Ln Em Nr) as (o1 & n' & o2 & L1 & Lt & L2 & Q).
      exists o1, n', o2. rewrite !lookup_app_l by (eauto using lookup_lt_Some). auto.
  - exfalso. rewrite lookup_app_r in Ln by lia.
    destruct (n - length hist); [|discriminate]. injection Ln as ->.
    destruct op as [id pk|id|id sk rng]; cbn [spec_step op_member] in *; subst id.
    + destruct (decide (is_Some _)) as [[? Q]|]; [congruence|]. rewrite lookup_insert in Hg. discriminate.
    + eapply Nr; reflexivity.
    + rewrite lookup_insert in Hg. discriminate.
Qed.
