(** Agreement of clients. *)
From Coq Require Import Arith Lia.
From stdpp Require Import base list gmap relations sorting.
From Verif Require PrekeyPropsProofs.
From Verif Require Import AccessModel GroupModel CgkaSpec GroupSpec GroupReplay GroupMembers GroupHistory GroupTransitive GroupPropsProofs PrekeyModel HiveModel HiveSpec HiveProofs.

Lemma supported_mono {cop} (W : sevent cop -> Prop) (K K' : ident -> Prop) : (forall i, K i -> reachable W K' i) ->
  (forall o, supported W K o -> supported W K' o) /\ (forall i, reachable W K i -> reachable W K' i).
Proof.
  intros H. apply supported_reachable; intros; auto.
  - apply sup_dlg; auto.
  - apply sup_rev; auto.
  - apply reach_key; auto.
  - apply reach_group; auto.
Qed.
Lemma supported_ext {cop} (W W' : sevent cop -> Prop) (K : ident -> Prop) : (forall x, W x -> W' x) ->
  (forall o, supported W K o -> supported W' K o) /\ (forall i, reachable W K i -> reachable W' K i).
Proof.
  intros H. apply supported_reachable; intros.
  - apply sup_dlg; auto.
  - apply sup_rev; auto.
  - apply reach_known; auto.
  - apply reach_key; auto.
  - apply reach_group; auto.
Qed.

Section client.
Context (order : gset nat -> list nat) (O : some_order order) (doc_content : nat -> ident -> bool).
Context {cg cop : Type} `{EqDecision cop} (cop_doc : cop -> ident) (cop_ok : cop -> bool) (cg_receive : kstore -> cg -> cop -> cg * bool).
Context (shuffle : list (sevent cop) -> list (sevent cop)) (Sh : forall l, shuffle l ≡ₚ l).
Lemma run_client (h : hive cg cop) batches : blank h -> tame (handed batches) (fun i => known_agent h i = true) ->
  exists h', ingest_all order doc_content cop_doc cop_ok cg_receive shuffle h batches = Some h' /\
    caught_up order doc_content (handed batches) (fun i => known_agent h i = true) (handed batches) h'.
Proof.
  intros B T. destruct (ingest_all_spec order O doc_content cop_doc cop_ok cg_receive (handed batches) (fun i => known_agent h i = true) T shuffle batches Sh (fun _ => False) h) as (h' & E & C).
  - apply blank_inv; [exact B|]. reflexivity.
  - intros x [].
  - auto.
  - exists h'. split; [exact E|]. eapply caught_up_ext; [|exact C]. tauto.
Qed.
End client.

(** Two clients with their own iteration orders, known people, batches and key agreement. *)
Section two.
Context (order order' : gset nat -> list nat) (O : some_order order) (O' : some_order order') (doc_content : nat -> ident -> bool).
Context {cg cg' cop : Type} `{EqDecision cop}.
Context (W W' : sevent cop -> Prop) (K K' : ident -> Prop) (T : tame W K) (T' : tame W' K').
Context (EW : forall x, W x <-> W' x).
Context (KK : forall i, K i -> K' i \/ exists o, W (EKey o) /\ ko_issuer o = i) (KK' : forall i, K' i -> K i \/ exists o, W (EKey o) /\ ko_issuer o = i).
Context (h : hive cg cop) (h' : hive cg' cop) (C : caught_up order doc_content W K W h) (C' : caught_up order' doc_content W' K' W' h').

Lemma both_ops o : has_op h o <-> has_op h' o.
Proof.
  rewrite (exact_ops order doc_content W K T h C), (exact_ops order' doc_content W' K' T' h' C'). split; intros H.
  - apply (proj1 (supported_ext W W' K' (fun x => proj1 (EW x)))). eapply (proj1 (supported_mono W K K' _)), H. Unshelve.
    intros i Ki. destruct (KK i Ki) as [X|(k & A & <-)]; [apply reach_known, X|apply reach_key, A].
  - apply (proj1 (supported_ext W' W K (fun x => proj2 (EW x)))). eapply (proj1 (supported_mono W' K' K _)), H. Unshelve.
    intros i Ki. destruct (KK' i Ki) as [X|(k & A & <-)]; [apply reach_known, X|apply reach_key, EW, A].
Qed.
Lemma both_dlgs : h_dlgs h = h_dlgs h'.
Proof.
  apply map_eq. intros s. apply option_eq. intros d. pose proof (cu_inv _ _ _ _ _ _ C) as I. pose proof (cu_inv _ _ _ _ _ _ C') as I'. split; intros E.
  - pose proof (iv_dlgs _ _ _ _ _ I _ _ E) as Q. rewrite <- Q in E |- *. apply (both_ops (MD d)), E.
  - pose proof (iv_dlgs _ _ _ _ _ I' _ _ E) as Q. rewrite <- Q in E |- *. apply (both_ops (MD d)), E.
Qed.
Lemma both_revs : h_revs h = h_revs h'.
Proof.
  apply map_eq. intros s. apply option_eq. intros d. pose proof (cu_inv _ _ _ _ _ _ C) as I. pose proof (cu_inv _ _ _ _ _ _ C') as I'. split; intros E.
  - pose proof (iv_revs _ _ _ _ _ I _ _ E) as Q. rewrite <- Q in E |- *. apply (both_ops (MR d)), E.
  - pose proof (iv_revs _ _ _ _ _ I' _ _ E) as Q. rewrite <- Q in E |- *. apply (both_ops (MR d)), E.
Qed.
Lemma both_group i g : has_group h i g -> exists g', has_group h' i g' /\
  (revoked_once (has_op h) -> gr_members g = gr_members g' /\ gr_active g = gr_active g').
Proof.
  intros G. pose proof (cu_inv _ _ _ _ _ _ C) as I. pose proof (cu_inv _ _ _ _ _ _ C') as I'.
  destruct (group_ops order O doc_content W K T h i g I G) as (ops & H & _ & _ & Hops & d & Hd & Ed).
  destruct (iv_subject _ _ _ _ _ I' (MD d) (proj1 (both_ops _) Hd)) as (g' & G'). cbn in G'. rewrite Ed in G'. exists g'. split; [exact G'|]. intros R.
  destruct (group_ops order' O' doc_content W' K' T' h' i g' I' G') as (ops' & H' & _ & _ & Hops' & _).
  assert (S : sound ops). { apply (from_sound W K T ops i). intros o Ho. apply Hops in Ho as [Ho Eo]. split; [eapply sup_from, (iv_sup _ _ _ _ _ I), Ho|exact Eo]. }
  apply (converge_lemma order order' ops ops' g g' O O' H H'); [|apply S|apply S|].
  - intros o. rewrite Hops, Hops', both_ops. reflexivity.
  - intros r r' A B. apply R; [apply Hops in A as [A _]; exact A|apply Hops in B as [B _]; exact B].
Qed.
Lemma both_kinds : same_kind doc_content W -> dom (h_groups h) = dom (h_groups h') /\ dom (h_docs h) = dom (h_docs h').
Proof.
  intros SK. pose proof (cu_inv _ _ _ _ _ _ C) as I. pose proof (cu_inv _ _ _ _ _ _ C') as I'.
  assert (F : forall d, has_op h (MD d) -> from_events W (MD d)). { intros d Hd. eapply sup_from, (iv_sup _ _ _ _ _ I), Hd. }
  assert (X : forall i d, has_op h (MD d) -> d_proof d = None -> d_subject d = i -> doc_content (d_content d) i = false -> is_Some (h_groups h !! i) /\ is_Some (h_groups h' !! i)).
  { intros i d Hd P S D. split.
    - destruct (iv_subject _ _ _ _ _ I (MD d) Hd) as (g & [G|G]); cbn in G; rewrite S in G; [eauto|]. exfalso. destruct (iv_kind_doc _ _ _ _ _ I i g G) as (e & He & Pe & Se & De).
      pose proof (SK d e (F d Hd) (F e He) P Pe (eq_trans S (eq_sym Se))). congruence.
    - destruct (iv_subject _ _ _ _ _ I' (MD d) (proj1 (both_ops _) Hd)) as (g & [G|G]); cbn in G; rewrite S in G; [eauto|]. exfalso. destruct (iv_kind_doc _ _ _ _ _ I' i g G) as (e & He & Pe & Se & De).
      apply both_ops in He. pose proof (SK d e (F d Hd) (F e He) P Pe (eq_trans S (eq_sym Se))). congruence. }
  assert (Y : forall i d, has_op h (MD d) -> d_proof d = None -> d_subject d = i -> doc_content (d_content d) i = true -> is_Some (h_docs h !! i) /\ is_Some (h_docs h' !! i)).
  { intros i d Hd P S D. split.
    - destruct (iv_subject _ _ _ _ _ I (MD d) Hd) as (g & [G|G]); cbn in G; rewrite S in G; [|eauto]. exfalso. destruct (iv_kind_group _ _ _ _ _ I i g G) as (e & He & Pe & Se & De).
      pose proof (SK d e (F d Hd) (F e He) P Pe (eq_trans S (eq_sym Se))). congruence.
    - destruct (iv_subject _ _ _ _ _ I' (MD d) (proj1 (both_ops _) Hd)) as (g & [G|G]); cbn in G; rewrite S in G; [|eauto]. exfalso. destruct (iv_kind_group _ _ _ _ _ I' i g G) as (e & He & Pe & Se & De).
      apply both_ops in He. pose proof (SK d e (F d Hd) (F e He) P Pe (eq_trans S (eq_sym Se))). congruence. }
  split; apply set_eq; intros i; rewrite !elem_of_dom; split; intros [g G].
  - destruct (iv_kind_group _ _ _ _ _ I i g G) as (e & A & B & D & E). eapply X; eauto.
  - destruct (iv_kind_group _ _ _ _ _ I' i g G) as (e & A & B & D & E). apply both_ops in A. eapply X; eauto.
  - destruct (iv_kind_doc _ _ _ _ _ I i g G) as (e & A & B & D & E). eapply Y; eauto.
  - destruct (iv_kind_doc _ _ _ _ _ I' i g G) as (e & A & B & D & E). apply both_ops in A. eapply Y; eauto.
Qed.
Lemma both_pending x : is_membership x -> x ∈ h_pending h <-> x ∈ h_pending h'.
Proof.
  intros M. rewrite (exact_pending order doc_content W K T h x C M), (exact_pending order' doc_content W' K' T' h' x C' M), EW.
  assert (E : forall o, supported W K o <-> supported W' K' o).
  { intros o. rewrite <- (exact_ops order doc_content W K T h C), <- (exact_ops order' doc_content W' K' T' h' C'). apply both_ops. }
  split; intros [A B]; (split; [exact A|]); intros o Ho; apply B, E, Ho.
Qed.
End two.

(** Receiving again. *)
Section again.
Context (order : gset nat -> list nat) (doc_content : nat -> ident -> bool).
Context {cg cop : Type} `{EqDecision cop} (cop_doc : cop -> ident) (cop_ok : cop -> bool) (cg_receive : kstore -> cg -> cop -> cg * bool).
Notation hive := (hive cg cop).
Notation receive_event := (receive_event order doc_content cop_doc cop_ok cg_receive).
Definition stores_grow (h h' : hive) : Prop := (forall s d, h_dlgs h !! s = Some d -> h_dlgs h' !! s = Some d) /\ (forall s r, h_revs h !! s = Some r -> h_revs h' !! s = Some r).
Lemma stores_grow_refl h : stores_grow h h.
Proof. split; auto. Qed.
Lemma stores_grow_trans a b c : stores_grow a b -> stores_grow b c -> stores_grow a c.
Proof. intros [A B] [A' B']. split; auto. Qed.
Lemma put_dlg_grows (h h' : hive) d : h_dlgs h !! d_sig d = None -> h_dlgs h' = h_dlgs h -> h_revs h' = h_revs h -> stores_grow h (put_dlg h' d).
Proof. intros N E1 E2. split; cbn; rewrite ?E1, ?E2; intros s e H; [|exact H]. rewrite lookup_insert_ne; [exact H|congruence]. Qed.
Lemma put_rev_grows (h h' : hive) d : h_revs h !! r_sig d = None -> h_dlgs h' = h_dlgs h -> h_revs h' = h_revs h -> stores_grow h (put_rev h' d).
Proof. intros N E1 E2. split; cbn; rewrite ?E1, ?E2; intros s e H; [exact H|]. rewrite lookup_insert_ne; [exact H|congruence]. Qed.
Lemma resolve_dlg_sig (h : hive) x d : resolve_dlg h x = inr d -> d_sig d = sd_sig x.
Proof. unfold resolve_dlg. repeat case_match; intros; simplify_eq; reflexivity. Qed.
Lemma resolve_rev_sig (h : hive) x r : resolve_rev h x = inr r -> r_sig r = sr_sig x.
Proof. unfold resolve_rev. repeat case_match; intros; simplify_eq; reflexivity. Qed.
Lemma receive_event_grows h x : stores_grow h (receive_event h x).1.
Proof.
  destruct x as [o|c|x|x]; cbn [HiveModel.receive_event].
  - unfold receive_key_event. destruct (receive_prekey_op _ _). (split; cbn; auto; fail).
  - unfold receive_cgka. repeat case_match; (split; cbn; auto; fail).
  - unfold receive_dlg. case_bool_decide as N; [(split; cbn; auto; fail)|]. apply eq_None_not_Some in N. destruct (sd_ok x); cbn [negb]; [|(split; cbn; auto; fail)].
    destruct (resolve_dlg h x) as [er|d] eqn:R; [(split; cbn; auto; fail)|]. pose proof (resolve_dlg_sig _ _ _ R) as S. rewrite <- S in N.
    cbv zeta. repeat (case_match; try (split; cbn; auto; fail)); cbn [fst]; try (apply put_dlg_grows; [exact N|reflexivity|reflexivity]).
    all: split; cbn; intros s e H'; try exact H'; rewrite lookup_insert_ne; [exact H'|congruence].
  - unfold receive_rev. case_bool_decide as N; [(split; cbn; auto; fail)|]. apply eq_None_not_Some in N. destruct (sr_ok x); cbn [negb]; [|(split; cbn; auto; fail)].
    destruct (resolve_rev h x) as [er|d] eqn:R; [(split; cbn; auto; fail)|]. pose proof (resolve_rev_sig _ _ _ R) as S. rewrite <- S in N.
    cbv zeta. repeat (case_match; try (split; cbn; auto; fail)); cbn [fst]; try (apply put_rev_grows; [exact N|reflexivity|reflexivity]).
Qed.
Definition receive_many (h : hive) (l : list (sevent cop)) : hive := foldl (fun h x => (receive_event h x).1) h l.
Lemma receive_many_grows l : forall h, stores_grow h (receive_many h l).
Proof. induction l as [|x l IH]; intros h; [apply stores_grow_refl|]. eapply stores_grow_trans; [apply receive_event_grows|apply IH]. Qed.
Lemma taken_stored h x h1 : receive_event h x = (h1, HDone) ->
  match x with EDlg x => is_Some (h_dlgs h1 !! sd_sig x) | ERev x => is_Some (h_revs h1 !! sr_sig x) | _ => True end.
Proof.
  destruct x as [o|c|x|x]; cbn [HiveModel.receive_event]; auto.
  - unfold receive_dlg. case_bool_decide as N; [intros [= <-]; exact N|]. destruct (sd_ok x); cbn [negb]; [|discriminate].
    destruct (resolve_dlg h x) as [er|d] eqn:R; [discriminate|]. pose proof (resolve_dlg_sig _ _ _ R) as S. cbv zeta. rewrite <- S.
    repeat case_match; intros E; simplify_eq; cbn; rewrite ?lookup_insert; eauto.
  - unfold receive_rev. case_bool_decide as N; [intros [= <-]; exact N|]. destruct (sr_ok x); cbn [negb]; [|discriminate].
    destruct (resolve_rev h x) as [er|d] eqn:R; [discriminate|]. pose proof (resolve_rev_sig _ _ _ R) as S. cbv zeta. rewrite <- S.
    repeat case_match; intros E; simplify_eq; cbn; rewrite ?lookup_insert; eauto.
Qed.
Lemma received_again h x h1 l : receive_event h x = (h1, HDone) -> is_membership x -> receive_event (receive_many h1 l) x = (receive_many h1 l, HDone).
Proof.
  intros E M. pose proof (taken_stored _ _ _ E) as T. destruct (receive_many_grows l h1) as [A B]. destruct x as [o|c|x|x]; [destruct M; discriminate|destruct M; discriminate| |].
  - cbn. unfold receive_dlg. destruct T as [d T]. rewrite bool_decide_true; [reflexivity|]. rewrite (A _ _ T). eauto.
  - cbn. unfold receive_rev. destruct T as [d T]. rewrite bool_decide_true; [reflexivity|]. rewrite (B _ _ T). eauto.
Qed.
End again.
Lemma prekey_again_store k o x : PrekeyPropsProofs.known k (ko_issuer o) = Some x -> in_id x = ko_issuer o -> o ∈ in_ops x -> in_prekeys x = build (in_ops x) -> verifies o = true ->
  receive_prekey_op k o = (k, None).
Proof.
  intros Kx Ix Ox Px V. assert (R : receive_key x o = (x, None)).
  { unfold receive_key. rewrite Ix, Nat.eqb_refl, V. cbn [negb]. replace ({[o]} ∪ in_ops x) with (in_ops x) by (apply set_eq; intros y; rewrite elem_of_union, elem_of_singleton; naive_solver).
    rewrite <- Px, <- Ix. destruct x; reflexivity. }
  unfold receive_prekey_op. unfold PrekeyPropsProofs.known in Kx. destruct (Nat.eqb_spec (ko_issuer o) (ks_public k)); [reflexivity|].
  destruct (Nat.eqb_spec (ko_issuer o) (ks_active k)). { rewrite Kx, R, PrekeyPropsProofs.set_indie_self by exact Kx. reflexivity. }
  destruct (ks_docs k !! ko_issuer o) as [z|] eqn:D. { subst z. rewrite R, PrekeyPropsProofs.set_doc_self by exact D. reflexivity. }
  destruct (ks_groups k !! ko_issuer o) as [z|] eqn:G. { subst z. rewrite R, PrekeyPropsProofs.set_group_self by exact G. reflexivity. }
  rewrite Kx, R, PrekeyPropsProofs.set_indie_self by exact Kx. reflexivity.
Qed.
Lemma prekey_at_once k o k1 : receive_prekey_op k o = (k1, None) -> verifies o = true -> receive_prekey_op k1 o = (k1, None).
Proof.
  intros E V.
  assert (R : forall x y, receive_key x o = (y, None) -> receive_key y o = (y, None)).
  { intros x y. unfold receive_key. destruct (Nat.eqb_spec (ko_issuer o) (in_id x)) as [Q|]; [|discriminate]. rewrite V. cbn [negb]. intros [= <-]. cbn [in_id in_ops]. rewrite Q, Nat.eqb_refl. cbn [negb].
    do 2 f_equal; [f_equal|]; apply set_eq; intros z; rewrite !elem_of_union, !elem_of_singleton; naive_solver. }
  unfold receive_prekey_op in E. destruct (Nat.eqb_spec (ko_issuer o) (ks_public k)) as [P|P]; [injection E as <-; unfold receive_prekey_op; rewrite P, Nat.eqb_refl; reflexivity|].
  destruct (Nat.eqb_spec (ko_issuer o) (ks_active k)) as [A|A].
  { destruct (ks_indies k !! ko_issuer o) as [x|] eqn:I.
    - destruct (receive_key x o) as [y e] eqn:Y. injection E as <- ->. unfold receive_prekey_op. cbn [set_indie ks_public ks_active ks_indies]. rewrite (proj2 (Nat.eqb_neq _ _) P), (proj2 (Nat.eqb_eq _ _) A), lookup_insert, (R _ _ Y).
      rewrite PrekeyPropsProofs.set_indie_self by (cbn; apply lookup_insert). reflexivity.
    - injection E as <-. unfold receive_prekey_op. rewrite (proj2 (Nat.eqb_neq _ _) P), (proj2 (Nat.eqb_eq _ _) A), I. reflexivity. }
  destruct (ks_docs k !! ko_issuer o) as [[x|]|] eqn:D.
  { destruct (receive_key x o) as [y e] eqn:Y. injection E as <- ->. unfold receive_prekey_op. cbn [set_doc ks_public ks_active ks_docs]. rewrite (proj2 (Nat.eqb_neq _ _) P), (proj2 (Nat.eqb_neq _ _) A), lookup_insert, (R _ _ Y).
    rewrite PrekeyPropsProofs.set_doc_self by (cbn; apply lookup_insert). reflexivity. }
  { injection E as <-. unfold receive_prekey_op. cbn [set_doc ks_public ks_active ks_docs]. rewrite (proj2 (Nat.eqb_neq _ _) P), (proj2 (Nat.eqb_neq _ _) A), lookup_insert.
    assert (Y : receive_key (individual_new o) o = (individual_new o, None)).
    { unfold receive_key, individual_new. cbn [in_id in_ops]. rewrite Nat.eqb_refl, V. cbn [negb]. rewrite (idemp_L (∪)). reflexivity. }
    rewrite Y, PrekeyPropsProofs.set_doc_self by (cbn; apply lookup_insert). reflexivity. }
  destruct (ks_groups k !! ko_issuer o) as [[x|]|] eqn:G.
  { destruct (receive_key x o) as [y e] eqn:Y. injection E as <- ->. unfold receive_prekey_op. cbn [set_group ks_public ks_active ks_docs ks_groups]. rewrite (proj2 (Nat.eqb_neq _ _) P), (proj2 (Nat.eqb_neq _ _) A), D, lookup_insert, (R _ _ Y).
    rewrite PrekeyPropsProofs.set_group_self by (cbn; apply lookup_insert). reflexivity. }
  { injection E as <-. unfold receive_prekey_op. cbn [set_group ks_public ks_active ks_docs ks_groups]. rewrite (proj2 (Nat.eqb_neq _ _) P), (proj2 (Nat.eqb_neq _ _) A), D, lookup_insert.
    assert (Y : receive_key (individual_new o) o = (individual_new o, None)).
    { unfold receive_key, individual_new. cbn [in_id in_ops]. rewrite Nat.eqb_refl, V. cbn [negb]. rewrite (idemp_L (∪)). reflexivity. }
    rewrite Y, PrekeyPropsProofs.set_group_self by (cbn; apply lookup_insert). reflexivity. }
  destruct (receive_key _ o) as [y e] eqn:Y. injection E as <- ->. unfold receive_prekey_op. cbn [set_indie ks_public ks_active ks_docs ks_groups ks_indies]. rewrite (proj2 (Nat.eqb_neq _ _) P), (proj2 (Nat.eqb_neq _ _) A), D, G, lookup_insert, (R _ _ Y).
  rewrite PrekeyPropsProofs.set_indie_self by (cbn; apply lookup_insert). reflexivity.
Qed.
