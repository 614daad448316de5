(** Secrecy over time: later operations and later secrets do not open earlier keys. *)
From Coq Require Import Arith Lia.
From stdpp Require Import base list gmap.
From Verif Require Import ResModel KeysModel TreeModel TreeMathModel TreeMathSpec TreeMathProofs TreeSpec TreeOps TreeView TreeProofs TreeInv TreeRun SecrecySpec SecrecyProofs TreePropsProofs.

(** The secrets that occur in a history. *)
Definition known_in (hist : list tree_op) (s : secret_key) : Prop := exists op, op ∈ hist /\ op_secret op s.
Lemma known_mono hist hist' s : known_in hist s -> known_in (hist ++ hist') s.
Proof. intros (op & H & S). exists op. split; [apply elem_of_app; auto|exact S]. Qed.
Lemma issued_known hist s : s ∈ issued hist -> known_in hist s.
Proof. intros I. apply issued_in in I as (n & op & L & S). exists op. split; [eapply elem_of_list_lookup_2; eauto|right; exact S]. Qed.

Lemma nkey_known t h g pcs hist k j p : Inv t h -> abs_group t g -> SI t g pcs hist -> nkey t k j = Some p -> known_in hist p.
Proof.
  intros V A [M N L] K. destruct k as [|k].
  - apply nkey_leaf_inv in K as [m El]. destruct (L m p) as (op & H & S); [apply A; eauto|]. exists op. split; [exact H|left; exact S].
  - apply nkey_inner in K as (v & Ev & <-). destruct (N _ _ _ Ev) as (n & m & sk & rng & i & Ln & _ & _ & _ & Hv & _).
    exists (OUpdate m sk rng). split; [eapply elem_of_list_lookup_2; eauto|right; exact Hv].
Qed.

(** Every published ciphertext is sealed between two secrets of the history. *)
Definition seals_known (pcs : list path_change) (hist : list tree_op) : Prop :=
  forall e, published pcs e -> exists a b, es_key e = derive_symmetric_key a b /\ known_in hist a /\ known_in hist b.

Lemma step_seals t h g op t' o pcs hist : step_ok t h g op t' o -> seals_known pcs hist ->
  (exists h' g' pcs', Inv t' h' /\ abs_group t' g' /\ SI t' g' pcs' (hist ++ [op])) ->
  seals_known (pcs ++ match o with Some pc => [pc] | None => [] end) (hist ++ [op]).
Proof.
  intros St S (h' & g' & pcs' & V' & A' & Si').
  assert (Old : seals_known pcs (hist ++ [op])).
  { intros e Pe. destruct (S e Pe) as (a & b & E & Ka & Kb). exists a, b. split; [exact E|]. split; apply known_mono; assumption. }
  destruct St as [op Es Nu Nr Na | id pk t' i h'' Ng Hh D | id i m t' Hg R | id sk rng i vs rng' Ei EV U]; rewrite ?app_nil_r; try exact Old.
  set (u := upd_tree t id sk i vs) in *.
  intros e Pe. apply published_app in Pe as [Pe|Pe]; [auto|]. apply published_path in Pe as (k & v & x & Lk & Lx).
  destruct (updated_sealed _ _ _ _ _ _ _ _ _ _ _ U EV Lk) as (eph & Sl & Heph).
  assert (Ke : known_in (hist ++ [OUpdate id sk rng]) (v_encrypter v)) by (eapply nkey_known; [exact V'|exact A'|exact Si'|apply Sl]).
  destruct (proj1 (sl_entries _ _ _ _ _ Sl x e) Lx) as [[_ Q]|(k0 & j0 & p & R & K & _ & Q)].
  - exists (v_encrypter v), eph. split; [rewrite Q; reflexivity|]. split; [exact Ke|].
    destruct (resn u k (sib (anc i k))) as [|[k0 j0] r] eqn:Rn.
    + destruct Heph as [He1 _]; [intros k0 j0 R; apply resn_spec in R; rewrite Rn in R; inversion R|].
      apply issued_known. rewrite issued_snoc. apply elem_of_app. right. exact He1.
    + destruct (sl_eph _ _ _ _ _ Sl k0 j0) as (k1 & j1 & R1 & K1); [apply resn_spec; rewrite Rn; left|].
      eapply nkey_known; [exact V'|exact A'|exact Si'|exact K1].
  - exists (v_encrypter v), p. split; [rewrite Q; reflexivity|]. split; [exact Ke|]. eapply nkey_known; [exact V'|exact A'|exact Si'|exact K].
Qed.

Lemma reachable_seals id pk ops t pcs : reachable id pk ops t pcs -> NoDup (issued (OAdd id pk :: ops)) ->
  seals_known pcs (OAdd id pk :: ops).
Proof.
  revert t pcs; induction ops as [|op ops IH] using rev_ind; intros t pcs R ND.
  - destruct R as (t0 & E0 & E). cbn [run] in E. injection E as <- <-. intros e (pc & ? & ? & ? & ? & H & _). inversion H.
  - pose proof (reachable_si _ _ _ _ _ R ND) as (h2 & V2 & A2 & Si2). destruct R as (t0 & E0 & E).
    apply run_snoc in E as (t1 & pcs1 & o & R & St & ->). rewrite app_comm_cons in *.
    assert (ND1 : NoDup (issued (OAdd id pk :: ops))) by (rewrite issued_snoc in ND; apply NoDup_app in ND; tauto).
    assert (R1 : reachable id pk ops t1 pcs1) by (exists t0; auto).
    destruct (reachable_si _ _ _ _ _ R1 ND1) as (h & V & A & Si).
    destruct (op_step_inv _ _ _ _ _ _ V A St) as (h' & _ & V' & A' & SO).
    eapply step_seals; [exact SO|apply (IH t1 pcs1 R1 ND1)|]. do 3 eexists. split; [exact V2|]. split; [exact A2|exact Si2].
Qed.

(** What comes after a history publishes only secrets of its own. *)
Lemma later_messages id pk ops0 ops1 t0 t pcs0 pcs : reachable id pk ops0 t0 pcs0 -> reachable id pk (ops0 ++ ops1) t pcs ->
  NoDup (issued (OAdd id pk :: ops0 ++ ops1)) ->
  forall e, published pcs e -> published pcs0 e \/ es_msg e ∈ issued ops1.
Proof.
  revert t pcs; induction ops1 as [|op ops1 IH] using rev_ind; intros t pcs R0 R ND e Pe.
  - rewrite app_nil_r in R. destruct R0 as (x & Ex & R0), R as (y & Ey & R). rewrite Ex in Ey. injection Ey as <-.
    rewrite R0 in R. injection R as _ <-. auto.
  - rewrite app_assoc in R, ND. pose proof R as R'. destruct R as (x & Ex & E).
    apply run_snoc in E as (t1 & pcs1 & o & R & St & ->). rewrite app_comm_cons in ND.
    assert (ND1 : NoDup (issued (OAdd id pk :: ops0 ++ ops1))) by (rewrite issued_snoc in ND; apply NoDup_app in ND; tauto).
    assert (R1 : reachable id pk (ops0 ++ ops1) t1 pcs1) by (exists x; auto).
    rewrite issued_snoc. apply published_app in Pe as [Pe|Pe].
    + destruct (IH _ _ R0 R1 ND1 e Pe) as [H|H]; [auto|]. right. apply elem_of_app. auto.
    + right. apply elem_of_app. right.
      destruct (reachable_si _ _ _ _ _ R1 ND1) as (h & V & A & Si).
      destruct (op_step_inv _ _ _ _ _ _ V A St) as (h' & _ & _ & _ & SO).
      destruct SO as [op Es Nu Nr Na | id' pk' t' i h'' Ng Hh D | id' i m t' Hg Rm | id' sk rng i vs rng' Ei EV U];
        try (destruct Pe as (pc & ? & ? & ? & ? & H & _); inversion H; fail).
      apply published_path in Pe as (k & v & y & Lk & Lx). cbn [op_rng].
      destruct (updated_sealed _ _ _ _ _ _ _ _ _ _ _ U EV Lk) as (eph & Sl & _).
      assert (Me : es_msg e = v_pk v).
      { destruct (proj1 (sl_entries _ _ _ _ _ Sl y e) Lx) as [[_ Q]|(k0 & j0 & p0 & _ & _ & _ & Q)]; rewrite Q; reflexivity. }
      rewrite Me. apply (enc_versions_rng _ _ _ _ _ _ _ _ EV). eapply elem_of_list_lookup_2; eauto.
Qed.

(** A secret that does not come from a later generator is derivable from the earlier
    ciphertexts alone. *)
Lemma derivable_early id pk ops0 ops1 t0 t pcs0 pcs K s : reachable id pk ops0 t0 pcs0 -> reachable id pk (ops0 ++ ops1) t pcs ->
  fresh_history (OAdd id pk :: ops0 ++ ops1) -> derivable K (published pcs) s -> s ∈ issued ops1 \/ derivable K (published pcs0) s.
Proof.
  intros R0 R [F1 F2] D. change (NoDup (issued ((OAdd id pk :: ops0) ++ ops1))) in F1.
  pose proof F1 as F1'. unfold issued in F1. rewrite map_app, concat_app in F1. apply NoDup_app in F1 as (ND0 & Dj & _).
  induction D as [s Ks|e s p Pe D IH Ek].
  - right. apply derivable_known, Ks.
  - destruct (later_messages _ _ _ _ _ _ _ _ R0 R F1' e Pe) as [Pe0|I]; [|auto]. right.
    destruct IH as [I|IH]; [|eapply derivable_open; eauto]. exfalso.
    destruct (reachable_seals _ _ _ _ _ R0 ND0 e Pe0) as (a & b & E & Ka & Kb). rewrite Ek in E.
    assert (Ks : known_in (OAdd id pk :: ops0) s) by (destruct (derive_endpoints _ _ _ _ E) as [->| ->]; assumption).
    destruct Ks as (op & Hop & [Lf|Hr]).
    + apply (F2 op s); [|exact Lf|].
      * rewrite app_comm_cons. apply elem_of_app. auto.
      * rewrite app_comm_cons, map_app, concat_app. apply elem_of_app. auto.
    + apply (Dj s); [|exact I]. apply (issued_in (OAdd id pk :: ops0)). apply elem_of_list_lookup in Hop as [n Hn]. exists n, op. auto.
Qed.

(** Generalisation of [current_keys_secret]: secrets that the history does not know are no
    help either. *)
Lemma current_keys_secret_more t h g pcs hist (K : secret_key -> Prop) :
  Inv t h -> abs_group t g -> SI t g pcs hist -> fresh_history hist ->
  (forall s, K s -> superseded_secret hist s \/ s ∉ issued hist) -> (forall m p, g !! m = Some p -> ~ K p) ->
  forall k j p, nkey t k j = Some p -> ~ derivable K (published pcs) p.
Proof.
  intros V A [M N L] [F1 F2] HK HL.
  assert (KI : forall s n op, K s -> hist !! n = Some op -> ~ superseded hist n -> s ∈ op_rng op -> False).
  { intros s n op Ks Ln Ns Hs. destruct (HK s Ks) as [(n' & op' & Ln' & Ns' & [Lf|Hs'])|Q].
    - apply (F2 op' s); [eapply elem_of_list_lookup_2; eauto|exact Lf|]. apply issued_in. eauto.
    - assert (n = n') as ->; [|contradiction]. eapply issued_unique; eauto.
    - apply Q. apply issued_in. eauto. }
  assert (C : forall s, derivable K (published pcs) s ->
    (exists k j, nkey t k j = Some s) \/
    (exists n op, hist !! n = Some op /\ ~ superseded hist n /\ s ∈ op_rng op /\ forall e, published pcs e -> es_msg e <> s) ->
    False).
  { intros s D. induction D as [s Ks|e s p Pe D IH Ek]; intros Cur.
    - destruct Cur as [(k & j & Kk)|(n & op & Ln & Ns & Hs & _)]; [|eauto].
      destruct k as [|k].
      + apply nkey_leaf_inv in Kk as [id El]. apply (HL id s); [apply A; eauto|exact Ks].
      + apply nkey_inner in Kk as (v & Ev & <-).
        destruct (N _ _ _ Ev) as (n & id & sk & rng & i & Ln & Ns & _ & _ & Hv & _). eapply KI; eauto.
    - destruct Cur as [(k & j & Kk)|(n & op & Ln & Ns & Hs & Hm)]; [|eapply Hm; eauto].
      destruct k as [|k].
      + apply nkey_leaf_inv in Kk as [id El].
        destruct (L id (es_msg e)) as (op & Hop & Lf); [apply A; eauto|].
        apply (F2 op (es_msg e) Hop Lf). apply M. exact Pe.
      + apply nkey_inner in Kk as (v & Ev & Em).
        destruct (N _ _ _ Ev) as (n & id & sk & rng & i & Ln & Ns & _ & _ & Hv & He).
        destruct (He e Pe (eq_sym Em)) as (a & b & Ek' & Ga & Gb). rewrite Ek in Ek'.
        assert (G : good t pcs rng k j s) by (destruct (derive_endpoints _ _ _ _ Ek') as [->| ->]; assumption).
        apply IH. destruct G as [(k0 & j0 & _ & _ & K0)|[Hs Hm]]; [left; eauto|].
        right. exists n, (OUpdate id sk rng). auto. }
  intros k j p Kp D. apply (C p D). left. eauto.
Qed.

(** Neither secrets overridden at that moment nor those made later open the keys of a moment. *)
Lemma other_times_useless id pk ops0 ops1 t0 t pcs0 pcs (K : secret_key -> Prop) g :
  reachable id pk ops0 t0 pcs0 -> reachable id pk (ops0 ++ ops1) t pcs -> abs_group t0 g ->
  fresh_history (OAdd id pk :: ops0 ++ ops1) ->
  (forall s, K s -> superseded_secret (OAdd id pk :: ops0) s \/ known_in ops1 s) ->
  (forall m p, g !! m = Some p -> ~ K p) ->
  forall k j p, nkey t0 k j = Some p -> ~ derivable K (published pcs) p.
Proof.
  intros R0 R Ag F HK HL k j p Kp D.
  pose proof F as [F1 F2]. rewrite app_comm_cons in F1, F2. fold (issued ((OAdd id pk :: ops0) ++ ops1)) in F1, F2.
  assert (Is : issued ((OAdd id pk :: ops0) ++ ops1) = issued (OAdd id pk :: ops0) ++ issued ops1) by (unfold issued; rewrite map_app, concat_app; reflexivity).
  rewrite Is in F1, F2. apply NoDup_app in F1 as (ND0 & Dj & _).
  destruct (reachable_si _ _ _ _ _ R0 ND0) as (h & V & A & Si).
  assert (Eg : forall m q, fold_left spec_step ops0 {[ id := pk ]} !! m = Some q <-> g !! m = Some q) by (intros m q; rewrite (A m q), (Ag m q); reflexivity).
  pose proof (nkey_known _ _ _ _ _ _ _ _ V A Si Kp) as Kn.
  destruct (derivable_early _ _ _ _ _ _ _ _ _ _ R0 R F D) as [I|D0].
  - destruct Kn as (op & Hop & [Lf|Hr]).
    + apply (F2 op p); [apply elem_of_app; auto|exact Lf|apply elem_of_app; auto].
    + apply (Dj p); [|exact I]. apply (issued_in (OAdd id pk :: ops0)). apply elem_of_list_lookup in Hop as [n Hn]. eauto.
  - revert D0. eapply (current_keys_secret_more t0 h _ pcs0 (OAdd id pk :: ops0) K V A Si).
    + split; [exact ND0|]. intros op s Hop Lf Hs. apply (F2 op s); [apply elem_of_app; auto|exact Lf|apply elem_of_app; auto].
    + intros s Ks. destruct (HK s Ks) as [H|(op & Hop & Hsec)]; [auto|].
      right. intros I. destruct Hsec as [Lf|Hr].
      * apply (F2 op s); [apply elem_of_app; auto|exact Lf|apply elem_of_app; auto].
      * apply (Dj s I). apply issued_in. apply elem_of_list_lookup in Hop as [n Hn]. eauto.
    + intros m q Q. apply (HL m q), Eg, Q.
    + exact Kp.
Qed.

(** Keys of a moment stay closed to those who were not members at that moment, whatever
    happens later and whatever role they have later. *)
Lemma absent_locked_out id pk ops0 ops1 t0 t pcs0 pcs (C : member_id -> Prop) (K : secret_key -> Prop) g :
  reachable id pk ops0 t0 pcs0 -> reachable id pk (ops0 ++ ops1) t pcs -> abs_group t0 g ->
  fresh_history (OAdd id pk :: ops0 ++ ops1) ->
  (forall m, C m -> g !! m = None) ->
  (forall s, K s -> exists op, op ∈ OAdd id pk :: ops0 ++ ops1 /\ C (op_member op) /\ op_secret op s) ->
  (forall m p, g !! m = Some p -> ~ K p) ->
  forall k j p, nkey t0 k j = Some p -> ~ derivable K (published pcs) p.
Proof.
  intros R0 R Ag F HC HK. apply (other_times_useless id pk ops0 ops1 t0 t pcs0 pcs K g R0 R Ag F).
  destruct (reachable_inv _ _ _ _ _ R0) as (h & V & A).
  intros s Ks. destruct (HK s Ks) as (op & Hop & Hc & Hsec). rewrite app_comm_cons in Hop. apply elem_of_app in Hop as [Hop|Hop].
  - left. apply elem_of_list_lookup in Hop as [n Ln]. exists n, op. split; [exact Ln|]. split; [|exact Hsec].
    apply (absent_superseded (OAdd id pk :: ops0) ∅ (op_member op) n op); auto.
    + cbn [fold_left spec_step]. rewrite decide_False by (rewrite lookup_empty; intros [? ?]; discriminate).
      rewrite insert_empty. apply eq_None_not_Some. intros [q Q]. apply A, Ag in Q. rewrite (HC _ Hc) in Q. discriminate.
    + intros id' ->. destruct Hsec as [H|H]; [contradiction|inversion H].
  - right. exists op. auto.
Qed.
Lemma absent_locked_out_lemma id pk ops0 ops1 t0 t pcs0 pcs (C : member_id -> Prop) (K : secret_key -> Prop) :
  reachable id pk ops0 t0 pcs0 -> reachable id pk (ops0 ++ ops1) t pcs ->
  fresh_history (OAdd id pk :: ops0 ++ ops1) ->
  (forall m, C m -> contains_id t0 m = false) ->
  (forall s, K s -> exists op, op ∈ OAdd id pk :: ops0 ++ ops1 /\ C (op_member op) /\ op_secret op s) ->
  (forall m p, node_key_for_id t0 m = Ok (SKey (pub p)) -> ~ K p) ->
  forall m p sks sks' root, node_key_for_id t0 m = Ok (SKey (pub p)) ->
    (forall q s, sks !! q = Some s -> pub s = q) -> sks !! pub p = Some p ->
    decrypt_tree_secret t0 m sks = (sks', Ok root) ->
    ~ derivable K (published pcs) root.
Proof.
  intros R0 R F HC HK HL m p sks sks' root Hm Hs Hp D.
  destruct (reachable_inv _ _ _ _ _ R0) as (h & V & A).
  assert (Q : nkey t0 h 0 = Some root).
  { unfold pub in *. apply (node_key_for_id_spec t0 h _ m p V A) in Hm. apply A in Hm as [i El].
    assert (Ei : t_ids t0 !! m = Some i) by (apply (inv_ids _ _ V); eauto).
    pose proof (decrypt_tree_secret_spec t0 h m i p sks (inv_shape _ _ V) (inv_keyed _ _ V) Ei
      (inv_id_range _ _ _ _ V Ei) El Hs Hp) as D'.
    destruct (nkey t0 h 0) as [rk|].
    - destruct D' as (sks'' & D' & _). rewrite D in D'. injection D' as _ ->. reflexivity.
    - rewrite D in D'. discriminate. }
  eapply (absent_locked_out id pk ops0 ops1 t0 t pcs0 pcs C K _ R0 R A F); [|exact HK| |exact Q].
  - intros x Hx. apply HC in Hx. rewrite (contains_id_spec _ _ _ _ V A) in Hx. apply bool_decide_eq_false in Hx. apply eq_None_not_Some. exact Hx.
  - intros x q Eq. apply (HL x). eapply node_key_for_id_spec; eauto.
Qed.
