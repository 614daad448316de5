(** A team of clients is, for every document, a network of key agreements. *)
From Coq Require Import Arith Lia.
From stdpp Require Import base list gmap relations.
From Verif Require Import ResModel KeysModel TreeModel OpsModel OpsSpec OpsInv CgkaModel CgkaSpec CgkaProofs NetSpec NetProofs NetKeys NetAgree NetInv NetRun GrowReceive.
From Verif Require Import AccessModel GroupModel GroupSpec PrekeyModel HiveModel HiveProofs SyncModel DocModel DocProofs TransactModel TeamSpec.

(** ** Several calls in a row *)
Lemma moved_same n r c : n_reps n !! r = Some c -> g_ops (c_graph c) ⊆ n_ops n -> moved n r c = n.
Proof. intros E Su. destruct n as [R O C]. unfold moved. cbn in *. rewrite (insert_id _ _ _ E), union_absorb by exact Su. reflexivity. Qed.
Lemma moved_moved n r c1 c2 : g_ops (c_graph c1) ⊆ g_ops (c_graph c2) -> moved (moved n r c1) r c2 = moved n r c2.
Proof. intros Su. unfold moved. cbn. rewrite insert_insert, <- (assoc_L (∪)). rewrite (map_subseteq_union (g_ops (c_graph c1))) by exact Su. reflexivity. Qed.

Section net.
Context (ho : nat -> gset digest -> list digest) (ro : nat -> gset (member_id * nat) -> list (member_id * nat)).
Context (HH : forall r, some_order (ho r)) (HR : forall r, some_order (ro r)).
Notation step := (net_step ho ro).
Notation reach := (net_reachable ho ro).

(** The replica goes from [c] to [c']. *)
Definition goes (n : network) (r : nat) (c c' : cgka) : Prop := rtc step n (moved n r c') /\ g_ops (c_graph c) ⊆ g_ops (c_graph c').
Lemma goes_refl n r c : reach n -> n_reps n !! r = Some c -> goes n r c c.
Proof. intros R E. split; [|reflexivity]. rewrite moved_same; [reflexivity|exact E|apply (no_sub _ _ _ (net_reachable_ok ho ro HH HR _ R) _ _ E)]. Qed.
Lemma goes_trans n r c c1 c2 : goes n r c c1 -> goes (moved n r c1) r c1 c2 -> goes n r c c2.
Proof. intros [S1 G1] [S2 G2]. rewrite (moved_moved n r c1 c2 G2) in S2. split; [etrans; eauto|etrans; eauto]. Qed.
Lemma goes_reach n r c c' : reach n -> goes n r c c' -> reach (moved n r c').
Proof. intros R [S _]. eapply steps_reachable; eauto. Qed.
Lemma moved_rep n r c : n_reps (moved n r c) !! r = Some c.
Proof. apply lookup_insert. Qed.

(** A call that makes at most one operation. *)
Definition one_op (c c' : cgka) (h : digest) : Prop := (exists op, so_hash op = h /\ c_graph c' = add_local_op (c_graph c) op) \/ c_graph c' = c_graph c.
Lemma one_goes n r c c' h : reach n -> n_reps n !! r = Some c -> n_ops n !! h = None -> one_op c c' h -> step n (moved n r c') ->
  goes n r c c' /\ forall x, x <> h -> n_ops n !! x = None -> n_ops (moved n r c') !! x = None.
Proof.
  intros R E N One S. pose proof (no_sub _ _ _ (net_reachable_ok ho ro HH HR _ R) _ _ E) as Su.
  assert (N' : g_ops (c_graph c) !! h = None). { destruct (g_ops (c_graph c) !! h) as [o|] eqn:G; [|reflexivity]. rewrite (lookup_weaken _ _ _ _ G Su) in N. discriminate. }
  assert (G : g_ops (c_graph c') = g_ops (c_graph c) \/ exists op, g_ops (c_graph c') = <[h := op]> (g_ops (c_graph c))).
  { destruct One as [(op & <- & ->)| ->]; [right; exists op; reflexivity|left; reflexivity]. }
  split.
  - split; [apply rtc_once, S|]. destruct G as [->|[op ->]]; [reflexivity|apply insert_subseteq, N'].
  - intros x Nx Hx. cbn. apply lookup_union_None. split; [exact Hx|].
    assert (Hx' : g_ops (c_graph c) !! x = None). { destruct (g_ops (c_graph c) !! x) as [o|] eqn:Q; [|reflexivity]. rewrite (lookup_weaken _ _ _ _ Q Su) in Hx. discriminate. }
    destruct G as [->|[op ->]]; [exact Hx'|rewrite lookup_insert_ne by auto; exact Hx'].
Qed.
Lemma weaken_one c c' h (P : signed_op -> Prop) : (exists op, so_hash op = h /\ P op /\ c_graph c' = add_local_op (c_graph c) op) \/ c_graph c' = c_graph c -> one_op c c' h.
Proof. intros [(op & A & _ & B)|A]; [left; eauto|right; exact A]. Qed.

Lemma add_keys_goes r l : forall n c hs c' x, reach n -> n_reps n !! r = Some c -> NoDup hs -> (forall y, y ∈ hs -> n_ops n !! y = None) ->
  add_keys (ho r) (ro r) c l hs = (c', x) -> goes n r c c' /\ forall y, y ∉ hs -> n_ops n !! y = None -> n_ops (moved n r c') !! y = None.
Proof.
  assert (Still : forall n c, reach n -> n_reps n !! r = Some c -> goes n r c c /\ forall (hs : list digest) y, y ∉ hs -> n_ops n !! y = None -> n_ops (moved n r c) !! y = None).
  { intros n c R E. split; [apply goes_refl; assumption|]. intros hs y _ Hy. rewrite moved_same; [exact Hy|exact E|apply (no_sub _ _ _ (net_reachable_ok ho ro HH HR _ R) _ _ E)]. }
  induction l as [|[i pk] l IH]; intros n c hs c' x R E ND U; cbn [add_keys].
  - intros Q. injection Q as <- _. destruct (Still n c R E) as [A B]. split; [exact A|apply B].
  - destruct hs as [|y hs]; [intros Q; injection Q as <- _; destruct (Still n c R E) as [A B]; split; [exact A|apply B]|]. apply NoDup_cons in ND as [Ny ND].
    destruct (cgka_add (ho r) (ro r) c i pk y) as [c1 x1] eqn:Ea. assert (Uy : n_ops n !! y = None) by (apply U; left).
    assert (S : step n (moved n r c1)) by (eapply ns_add; [exact E|exact Uy|exact Ea]).
    destruct (one_goes n r c c1 y R E Uy (weaken_one _ _ _ _ (cgka_add_graph _ _ _ _ _ _ _ _ Ea)) S) as [G1 F1].
    assert (End : forall c' (x : res (list signed_op)), (c1, x) = (c', x) -> goes n r c c' /\ forall z, z ∉ y :: hs -> n_ops n !! z = None -> n_ops (moved n r c') !! z = None).
    { intros c2 x2 Q. injection Q as <-. split; [exact G1|]. intros z Hz. apply F1. set_solver. }
    destruct x1 as [o|e| |]; try (intros Q; injection Q as <- _; apply (End c1 (Err EIdentifierNotFound)); reflexivity).
    destruct (add_keys (ho r) (ro r) c1 l hs) as [c2 x2] eqn:Er.
    assert (Q2 : goes (moved n r c1) r c1 c2 /\ forall z, z ∉ hs -> n_ops (moved n r c1) !! z = None -> n_ops (moved (moved n r c1) r c2) !! z = None).
    { eapply IH; [eapply goes_reach; [exact R|exact G1]|apply moved_rep|exact ND| |exact Er]. intros z Hz. apply F1; [intros ->; contradiction|]. apply U. right. exact Hz. }
    destruct Q2 as [G2 F2]. intros Q. assert (c' = c2) as -> by (destruct x2; injection Q; auto).
    split; [eapply goes_trans; eauto|]. intros z Hz Hn. rewrite <- (moved_moved n r c1 c2 (proj2 G2)). apply F2; [set_solver|]. apply F1; [set_solver|exact Hn].
Qed.
Lemma remove_keys_goes r l : forall n c hs c' x, reach n -> n_reps n !! r = Some c -> NoDup hs -> (forall y, y ∈ hs -> n_ops n !! y = None) ->
  remove_keys (ho r) (ro r) c l hs = (c', x) -> goes n r c c'.
Proof.
  induction l as [|i l IH]; intros n c hs c' x R E ND U; cbn [remove_keys].
  - intros Q. injection Q as <- _. apply goes_refl; assumption.
  - destruct hs as [|y hs]; [intros Q; injection Q as <- _; apply goes_refl; assumption|]. apply NoDup_cons in ND as [Ny ND].
    destruct (cgka_remove (ho r) (ro r) c i y) as [c1 x1] eqn:Ea. assert (Uy : n_ops n !! y = None) by (apply U; left).
    assert (S : step n (moved n r c1)) by (eapply ns_remove; [exact E|exact Uy|exact Ea]).
    destruct (one_goes n r c c1 y R E Uy (weaken_one _ _ _ _ (cgka_remove_graph _ _ _ _ _ _ _ Ea)) S) as [G1 F1].
    destruct x1 as [o|e| |]; try (intros Q; injection Q as <- _; exact G1).
    destruct (remove_keys (ho r) (ro r) c1 l hs) as [c2 x2] eqn:Er.
    assert (G2 : goes (moved n r c1) r c1 c2).
    { eapply IH; [eapply goes_reach; [exact R|exact G1]|apply moved_rep|exact ND| |exact Er]. intros z Hz. apply F1; [intros ->; contradiction|]. apply U. right. exact Hz. }
    intros Q. assert (c' = c2) as -> by (destruct x2; injection Q; auto). eapply goes_trans; eauto.
Qed.
Lemma try_remove_keys_goes r l : forall n c hs c' x, reach n -> n_reps n !! r = Some c -> NoDup hs -> (forall y, y ∈ hs -> n_ops n !! y = None) ->
  try_remove_keys (ho r) (ro r) c l hs = (c', x) -> goes n r c c'.
Proof.
  induction l as [|i l IH]; intros n c hs c' x R E ND U; cbn [try_remove_keys].
  - intros Q. injection Q as <- _. apply goes_refl; assumption.
  - destruct hs as [|y hs]; [intros Q; injection Q as <- _; apply goes_refl; assumption|]. apply NoDup_cons in ND as [Ny ND].
    destruct (cgka_remove (ho r) (ro r) c i y) as [c1 x1] eqn:Ea. assert (Uy : n_ops n !! y = None) by (apply U; left).
    assert (S : step n (moved n r c1)) by (eapply ns_remove; [exact E|exact Uy|exact Ea]).
    destruct (one_goes n r c c1 y R E Uy (weaken_one _ _ _ _ (cgka_remove_graph _ _ _ _ _ _ _ Ea)) S) as [G1 F1].
    assert (G2 : forall c2 x2, try_remove_keys (ho r) (ro r) c1 l hs = (c2, x2) -> goes n r c c2).
    { intros c2 x2 Er. eapply goes_trans; [exact G1|]. eapply IH; [eapply goes_reach; [exact R|exact G1]|apply moved_rep|exact ND| |exact Er]. intros z Hz. apply F1; [intros ->; contradiction|]. apply U. right. exact Hz. }
    destruct x1 as [o|e| |]; try (intros Q; injection Q as <- _; exact G1).
    + destruct (try_remove_keys (ho r) (ro r) c1 l hs) as [c2 x2] eqn:Er. intros Q. assert (c' = c2) as -> by (destruct x2; injection Q; auto). exact (G2 _ _ eq_refl).
    + intros Q. exact (G2 _ _ Q).
Qed.

(** The first operation. *)
Lemma net_init n : reach n -> exists h id pk, n_ops n !! h = Some (SignedOp h (init_add id pk)).
Proof.
  induction 1 as [r id pk h c Q|n n' R (h & id & pk & IH) S]; [exists h, id, pk; apply lookup_singleton|].
  exists h, id, pk. eapply lookup_weaken; [exact IH|]. eapply step_ops; exact S.
Qed.
Lemma first_op n x o : reach n -> n_ops n !! x = Some o -> op_preds (so_op o) = ∅ -> exists id pk, o = SignedOp x (init_add id pk).
Proof.
  intros R E P. destruct (net_init n R) as (h & id & pk & I). pose proof (no_ops _ _ _ (net_reachable_ok ho ro HH HR _ R)) as [_ _ Rt _].
  assert (x = h) as ->; [|rewrite E in I; injection I as ->; eauto]. apply (Rt x h o (SignedOp h (init_add id pk)) E I P). reflexivity.
Qed.

(** Receiving. *)
Lemma owner_goes n r c id sks : reach n -> n_reps n !! r = Some c -> good_sks sks -> goes n r c (with_new_owner c id sks).
Proof. intros R E G. split; [apply rtc_once, ns_owner; assumption|reflexivity]. Qed.
Lemma merge_goes n r c op c' x : reach n -> n_reps n !! r = Some c -> n_ops n !! so_hash op = Some op ->
  merge_concurrent_operation (ho r) (ro r) c op = (c', x) -> goes n r c c'.
Proof.
  intros R E O M. split; [apply rtc_once; eapply ns_receive; eauto|]. eapply graph_step_mono, cgka_step_graph, st_receive, M.
Qed.
Lemma sks_good n r c : reach n -> n_reps n !! r = Some c -> good_sks (c_sks c).
Proof. intros R E. apply (lg_sks _ (ng_local _ _ _ (net_reachable_good ho ro HH HR _ R) _ _ E)). Qed.
Lemma insert_sks sks pk sk : good_sks sks -> pub sk = pk -> good_sks (<[pk := sk]> sks).
Proof. intros G E x y. rewrite lookup_insert_Some. intros [[<- <-]|[_ L]]; [exact E|apply G, L]. Qed.
Lemma invite_goes n r c op sk c' x : reach n -> n_reps n !! r = Some c -> n_ops n !! so_hash op = Some op ->
  (forall id pk i ps qs, so_op op = CAdd id pk i ps qs -> pub sk = pk) ->
  merge_cgka_invite_op (ho r) (ro r) (Some c) op sk = (c', x) -> exists c1, c' = Some c1 /\ goes n r c c1.
Proof.
  intros R E O P M. assert (Still : goes n r c c) by (apply goes_refl; assumption). unfold merge_cgka_invite_op in M. destruct (so_op op) as [id pk i ps qs|? ? ? ?|? ? ?] eqn:Eo; try (injection M as <- _; eauto).
  destruct (negb _); [injection M as <- _; eauto|]. cbn [merge_cgka_op] in M. set (c0 := with_new_owner _ _ _) in M.
  destruct (merge_concurrent_operation (ho r) (ro r) c0 op) as [c2 x2] eqn:Em. injection M as <- _. exists c2. split; [reflexivity|].
  assert (G0 : goes n r c c0). { apply owner_goes; [exact R|exact E|]. apply insert_sks; [apply (sks_good n r c R E)|]. eapply P. reflexivity. }
  eapply goes_trans; [exact G0|]. eapply merge_goes; [eapply goes_reach; eauto|apply moved_rep| |exact Em]. cbn. apply lookup_union_Some_l, O.
Qed.
Lemma doc_receive_goes n r k x o : reach n -> n_reps n !! r = cs_docs x !! do_doc o -> good_sks (cs_pairs x) -> n_ops n !! so_hash (do_op o) = Some (do_op o) ->
  (forall pk i ps qs, so_op (do_op o) = CAdd (ks_public k) pk i ps qs -> pk = pub public_secret) ->
  cs_docs (doc_receive (ho r) (ro r) k x o).1 !! do_doc o = cs_docs x !! do_doc o \/
  exists c', cs_docs (doc_receive (ho r) (ro r) k x o).1 !! do_doc o = Some c' /\ rtc step n (moved n r c').
Proof.
  intros R E Gp O Pb.
  assert (Put : forall c : option cgka, (c = None \/ exists c1, c = Some c1 /\ rtc step n (moved n r c1)) ->
    let x' := match c with Some c => Cgs (cs_pairs x) (<[do_doc o := c]> (cs_docs x)) | None => x end in
    cs_docs x' !! do_doc o = cs_docs x !! do_doc o \/ exists c', cs_docs x' !! do_doc o = Some c' /\ rtc step n (moved n r c')).
  { intros c [->|(c1 & -> & Rc)]; [left; reflexivity|]. right. exists c1. split; [apply lookup_insert|exact Rc]. }
  assert (Plain : forall c1 y, merge_cgka_op (ho r) (ro r) (cs_docs x !! do_doc o) (do_op o) = (c1, y) -> c1 = None \/ exists c2, c1 = Some c2 /\ rtc step n (moved n r c2)).
  { intros c1 y M. unfold merge_cgka_op in M. destruct (cs_docs x !! do_doc o) as [c|].
    - destruct (merge_concurrent_operation _ _ c (do_op o)) as [c2 x2] eqn:Em. injection M as <- _. right. exists c2. split; [reflexivity|]. eapply merge_goes; eauto.
    - destruct (so_op (do_op o)) as [id pk i ps qs|? ? ? ?|? ? ?] eqn:Eo; try (injection M as <- _; auto). destruct ps; [|injection M as <- _; auto].
      destruct (cgka_from_init id pk (do_op o)) as [c2|e| |] eqn:Ei; injection M as <- _; auto. right. exists c2. split; [reflexivity|].
      destruct (first_op n _ _ R O) as (id' & pk' & Ef); [rewrite Eo; reflexivity|]. rewrite Ef in Eo. cbn in Eo. injection Eo as <- <- _ _. rewrite Ef in Ei, O.
      apply rtc_once. eapply ns_join; [exact E|exact O|exact Ei]. }
  unfold doc_receive. cbv zeta.
  assert (PlainEnd : cs_docs (let '(c, y) := merge_cgka_op (ho r) (ro r) (cs_docs x !! do_doc o) (do_op o) in (match c with Some c => Cgs (cs_pairs x) (<[do_doc o := c]> (cs_docs x)) | None => x end, match y with Ok _ => true | _ => false end)).1 !! do_doc o = cs_docs x !! do_doc o \/
    exists c', cs_docs (let '(c, y) := merge_cgka_op (ho r) (ro r) (cs_docs x !! do_doc o) (do_op o) in (match c with Some c => Cgs (cs_pairs x) (<[do_doc o := c]> (cs_docs x)) | None => x end, match y with Ok _ => true | _ => false end)).1 !! do_doc o = Some c' /\ rtc step n (moved n r c')).
  { destruct (merge_cgka_op _ _ _ _) as [c1 y] eqn:M. apply Put. eapply Plain. reflexivity. }
  destruct (so_op (do_op o)) as [id pk i ps qs|? ? ? ?|? ? ?] eqn:Eo; try exact PlainEnd.
  assert (Inv : forall sk c1 y, pub sk = pk -> merge_cgka_invite_op (ho r) (ro r) (cs_docs x !! do_doc o) (do_op o) sk = (c1, y) ->
    c1 = None \/ exists c2, c1 = Some c2 /\ rtc step n (moved n r c2)).
  { intros sk c1 y Ep M. destruct (cs_docs x !! do_doc o) as [c|] eqn:Ec.
    - destruct (invite_goes n r c (do_op o) sk c1 y R E O) as (c2 & -> & G); [intros ? ? ? ? ? Q; rewrite Eo in Q; injection Q as <- <- _ _ _; exact Ep|exact M|]. right. exists c2. split; [reflexivity|]. apply G.
    - unfold merge_cgka_invite_op in M. rewrite Eo in M. injection M as <- _. auto. }
  destruct (Nat.eqb_spec id (ks_active k)) as [Ea|Na].
  - destruct (cs_pairs x !! pk) as [sk|] eqn:Ek; [|left; reflexivity]. destruct (merge_cgka_invite_op _ _ _ _ _) as [c1 y] eqn:M. apply Put. eapply Inv; [apply Gp, Ek|exact M].
  - destruct (Nat.eqb_spec id (ks_public k)) as [Eu|Nu]; [|exact PlainEnd].
    destruct (merge_cgka_invite_op _ _ _ _ _) as [c1 y] eqn:M. assert (Q := Inv _ _ _ ltac:(symmetry; eapply Pb; rewrite <- Eu; reflexivity) M).
    destruct y as [b|e| |]; try (apply Put, Q). destruct (reset_cgka_owner c1 (ks_active k)) as [c2 y2] eqn:Rs. apply Put.
    destruct Q as [->|(c3 & -> & R3)]; cbn in Rs; injection Rs as <- _; [left; reflexivity|]. right. eexists. split; [reflexivity|].
    rewrite <- (moved_moved n r c3 (with_new_owner c3 (ks_active k) (c_sks c3))) by reflexivity. eapply rtc_r; [exact R3|]. eapply ns_owner; [apply moved_rep|]. eapply sks_good; [eapply steps_reachable; [exact R|exact R3]|apply moved_rep].
Qed.

(** ** A new document *)
Lemma new_goes r doc sk h0 c l hs c1 x1 hu rng c2 x2 : NoDup (h0 :: hs ++ [hu]) ->
  cgka_from_init doc (pub sk) (SignedOp h0 (init_add doc (pub sk))) = Ok c ->
  add_keys (ho r) (ro r) (with_new_owner c doc {[ pub sk := sk ]}) l hs = (c1, x1) ->
  cgka_update (ho r) (ro r) c1 sk hu rng = (c2, x2) -> reach (moved (Net ∅ ∅ []) r c2).
Proof.
  intros ND E0 E1 E2. apply NoDup_cons in ND as [N0 ND]. apply NoDup_app in ND as (ND & Dj & _).
  set (n0 := Net {[ r := c ]} {[ h0 := SignedOp h0 (init_add doc (pub sk)) ]} []).
  assert (R0 : reach n0) by (apply nr_start, E0). assert (L0 : n_reps n0 !! r = Some c) by apply lookup_singleton.
  assert (G0 : goes n0 r c (with_new_owner c doc {[ pub sk := sk ]})).
  { apply owner_goes; [exact R0|exact L0|]. intros a b Q. apply lookup_singleton_Some in Q as [<- <-]. reflexivity. }
  set (ca := with_new_owner c doc {[ pub sk := sk ]}) in *. set (na := moved n0 r ca).
  assert (Ra : reach na) by (eapply goes_reach; eauto).
  assert (Oa : forall y, y <> h0 -> n_ops na !! y = None).
  { intros y Ny. unfold na. cbn. rewrite (init_graph _ _ _ _ E0). apply lookup_union_None. split; apply lookup_singleton_ne; congruence. }
  destruct (add_keys_goes r l na ca hs c1 x1 Ra (moved_rep _ _ _) ND) as [G1 F1]; [intros y Hy; apply Oa; intros ->; apply N0, elem_of_app; auto|exact E1|].
  assert (R1 : reach (moved na r c1)) by (eapply goes_reach; eauto).
  assert (Uu : n_ops (moved na r c1) !! hu = None).
  { apply F1; [intros Q; apply (Dj _ Q), elem_of_list_singleton; reflexivity|]. apply Oa. intros ->. apply N0, elem_of_app. right. left. }
  assert (S : step (moved na r c1) (moved (moved na r c1) r c2)) by (eapply ns_update; [apply moved_rep|exact Uu|exact E2]).
  destruct (one_goes _ r c1 c2 hu R1 (moved_rep _ _ _) Uu (weaken_one _ _ _ _ (cgka_update_graph _ _ _ _ _ _ _ _ E2)) S) as [G2 _].
  assert (Gz : goes n0 r c c2) by (eapply goes_trans; [exact G0|]; eapply goes_trans; [exact G1|exact G2]).
  replace (moved (Net ∅ ∅ []) r c2) with (moved n0 r c2); [eapply goes_reach; eauto|].
  destruct Gz as [_ Su]. rewrite (init_graph _ _ _ _ E0) in Su. unfold moved, n0. cbn. rewrite insert_singleton, (map_subseteq_union _ _ Su), (left_id_L ∅ (∪)). reflexivity.
Qed.
End net.

(** ** What the calls do to the key agreements of the documents *)
Definition touched (run : ident -> cgka -> cgka -> Prop) (D : ident -> Prop) (h h' : client) : Prop :=
  cs_pairs (h_cg h') = cs_pairs (h_cg h) /\
  forall d, cgka_of h' d = cgka_of h d \/ (D d /\ exists c c', cgka_of h d = Some c /\ cgka_of h' d = Some c' /\ run d c c').
Lemma touched_same run D h h' : h_cg h' = h_cg h -> touched run D h h'.
Proof. intros E. unfold touched, cgka_of. rewrite E. auto. Qed.
Lemma touched_put (run : ident -> cgka -> cgka -> Prop) (D : ident -> Prop) h i c c' : D i -> cgka_of h i = Some c -> run i c c' -> touched run D h (put_cgka h i c').
Proof. intros Di E Rn. split; [reflexivity|]. intros d. rewrite cgka_put. destruct (decide (d = i)) as [->|N]; [right; eauto 6|left; reflexivity]. Qed.
Lemma touched_trans run (D1 D2 : ident -> Prop) h h1 h2 : (forall d, D1 d -> D2 d -> False) -> touched run D1 h h1 -> touched run D2 h1 h2 -> touched run (fun d => D1 d \/ D2 d) h h2.
Proof.
  intros Dj [P1 T1] [P2 T2]. split; [congruence|]. intros d. destruct (T1 d) as [E1|(A1 & c & c1 & E1 & E1' & R1)], (T2 d) as [E2|(A2 & c2 & c3 & E2 & E2' & R2)].
  - left. congruence.
  - right. split; [auto|]. exists c2, c3. rewrite <- E1. auto.
  - right. split; [auto|]. exists c, c1. rewrite E2. auto.
  - exfalso. eauto.
Qed.
Lemma touched_weaken run (D D' : ident -> Prop) h h' : (forall d, D d -> D' d) -> touched run D h h' -> touched run D' h h'.
Proof. intros W [P T]. split; [exact P|]. intros d. destruct (T d) as [E|(A & B)]; [left; exact E|right; auto]. Qed.
Lemma touched_cg run D h h1 h' : h_cg h1 = h_cg h -> touched run D h1 h' -> touched run D h h'.
Proof. intros E [P T]. unfold touched, cgka_of in *. rewrite E in *. auto. Qed.

Section calls.
Context (order : gset nat -> list nat) (Hord : some_order order).
Context (ho : gset digest -> list digest) (ro : gset (member_id * nat) -> list (member_id * nat)) (pick : ident -> ident -> share_key).
Lemma order_nodup s : NoDup (order s).
Proof. rewrite (Hord s). apply NoDup_elements. Qed.

Definition adding (hs : ident -> list digest) (d : ident) (c c' : cgka) : Prop := exists l x, add_keys ho ro c l (hs d) = (c', x) /\ forall i pk, (i, pk) ∈ l -> pk = pick i d.
Lemma picked h a d l : pick_prekeys order pick h a d = Some l -> forall i pk, (i, pk) ∈ l -> pk = pick i d.
Proof. unfold pick_prekeys. destruct (individual_ids _ _ _); [|discriminate]. intros Q. apply (inj Some) in Q as <-. intros i pk Hi. apply elem_of_list_fmap in Hi as (j & Q & _). congruence. Qed.
Definition removing (hs : ident -> list digest) (d : ident) (c c' : cgka) : Prop :=
  (exists l x, remove_keys ho ro c l (hs d) = (c', x)) \/ exists l x, try_remove_keys ho ro c l (hs d) = (c', x).
Lemma doc_add_keys_touched hs h i l h' x : (forall j pk, (j, pk) ∈ l -> pk = pick j i) -> doc_add_keys ho ro h i l (hs i) = (h', x) -> touched (adding hs) (fun d => d = i) h h' /\ h_docs h' = h_docs h.
Proof.
  intros Pk. unfold doc_add_keys. destruct l as [|a l]; [intros Q; injection Q as <- _; split; [apply touched_same|]; reflexivity|].
  destruct (cgka_of h i) as [c|] eqn:E; [|intros Q; injection Q as <- _; split; [apply touched_same|]; reflexivity].
  destruct (add_keys ho ro c (a :: l) (hs i)) as [c' y] eqn:A. intros Q. injection Q as <- _. split; [|reflexivity]. eapply touched_put; [reflexivity|exact E|]. exists (a :: l), y. split; [exact A|exact Pk].
Qed.
Lemma add_to_docs_touched gid who hs docs : forall h h' x, NoDup docs -> add_to_docs order ho ro pick h gid who docs hs = (h', x) -> touched (adding hs) (fun d => d ∈ docs) h h'.
Proof.
  induction docs as [|j docs IH]; intros h h' x ND; cbn [add_to_docs]; [intros Q; injection Q as <- _; apply touched_same; reflexivity|]. apply NoDup_cons in ND as [Nj ND].
  assert (Rest : forall y, add_to_docs order ho ro pick h gid who docs hs = (h', y) -> touched (adding hs) (fun d => d ∈ j :: docs) h h').
  { intros y Q. eapply touched_weaken; [|eapply IH; eauto]. intros d Hd. right. exact Hd. }
  destruct (h_docs h !! j) as [g|]; [|apply Rest]. destruct (negb _); [apply Rest|]. destruct (pick_prekeys _ _ _ _ _) as [l|] eqn:Ep; [|intros Q; injection Q as <- _; apply touched_same; reflexivity].
  destruct (doc_add_keys ho ro h j l (hs j)) as [h1 x1] eqn:E1. destruct (doc_add_keys_touched hs h j l h1 x1 (picked _ _ _ _ Ep) E1) as [T1 _].
  assert (T1' : touched (adding hs) (fun d => d ∈ j :: docs) h h1). { eapply touched_weaken; [|exact T1]. intros d ->. left. }
  destruct x1 as [ops|e]; [|intros Q; injection Q as <- _; exact T1'].
  destruct (add_to_docs _ _ _ _ h1 _ _ _ _) as [h2 x2] eqn:E2. intros Q. assert (h' = h2) as -> by (destruct x2; injection Q; auto).
  eapply touched_weaken; [|eapply touched_trans; [|exact T1|eapply IH; eauto]]; [intros d [->|Hd]; [left|right; exact Hd]|intros d -> Hd; contradiction].
Qed.
Lemma add_member_touched h i who can content s hs h' x : hive_add_member order ho ro pick h i who can content s hs = (h', x) -> touched (adding hs) (fun _ => True) h h'.
Proof.
  unfold hive_add_member. destruct (any_loop _ h); [intros Q; injection Q as <- _; apply touched_same; reflexivity|]. destruct (h_groups h !! i) as [g|].
  - destruct (add_member _ _ _ _ _ _ _ _) as [[g' d]|e]; [|intros Q; injection Q as <- _; apply touched_same; reflexivity]. cbv zeta.
    assert (Eq : h_cg (put_made (put_group h i g') [d] []) = h_cg h) by reflexivity. set (h1 := put_made _ _ _) in *.
    destruct (_ || _); [intros Q; injection Q as <- _; apply touched_same, Eq|]. destruct (is_reader can); [|intros Q; injection Q as <- _; apply touched_same, Eq].
    destruct (add_to_docs _ _ _ _ h1 _ _ _ _) as [h2 x2] eqn:E2. intros Q. assert (h' = h2) as -> by (destruct x2; injection Q; auto). eapply touched_cg; [exact Eq|].
    eapply touched_weaken; [|eapply add_to_docs_touched; [apply order_nodup|exact E2]]. auto.
  - destruct (h_docs h !! i) as [g|]; [|intros Q; injection Q as <- _; apply touched_same; reflexivity].
    destruct (add_member _ _ _ _ _ _ _ _) as [[g' d]|e]; [|intros Q; injection Q as <- _; apply touched_same; reflexivity]. cbv zeta.
    assert (Eq : h_cg (put_made (put_doc h i g') [d] []) = h_cg h) by reflexivity. set (h1 := put_made _ _ _) in *.
    destruct (_ || _); [intros Q; injection Q as <- _; apply touched_same, Eq|]. destruct (is_reader can); [|intros Q; injection Q as <- _; apply touched_same, Eq].
    destruct (pick_prekeys _ _ _ _ _) as [l|] eqn:Ep; [|intros Q; injection Q as <- _; apply touched_same, Eq].
    destruct (doc_add_keys _ _ h1 _ _ _) as [h2 x2] eqn:E2. intros Q. assert (h' = h2) as -> by (destruct x2; injection Q; auto). eapply touched_cg; [exact Eq|].
    eapply touched_weaken; [|apply (doc_add_keys_touched hs _ _ _ _ _ (picked _ _ _ _ Ep) E2)]. auto.
Qed.
Lemma remove_from_docs_touched gid ids hs docs : forall h h' x, NoDup docs -> remove_from_docs order ho ro h gid ids docs hs = (h', x) -> touched (removing hs) (fun d => d ∈ docs) h h'.
Proof.
  induction docs as [|j docs IH]; intros h h' x ND; cbn [remove_from_docs]; [intros Q; injection Q as <- _; apply touched_same; reflexivity|]. apply NoDup_cons in ND as [Nj ND].
  assert (Rest : forall y, remove_from_docs order ho ro h gid ids docs hs = (h', y) -> touched (removing hs) (fun d => d ∈ j :: docs) h h').
  { intros y Q. eapply touched_weaken; [|eapply IH; eauto]. intros d Hd. right. exact Hd. }
  destruct (h_docs h !! j) as [g|]; [|apply Rest]. destruct (caps_of _ _ _) as [caps|]; [|intros Q; injection Q as <- _; apply touched_same; reflexivity].
  destruct (bool_decide _); [|apply Rest]. cbv zeta. destruct (cgka_of h j) as [c|] eqn:Ec; [|apply Rest].
  destruct (try_remove_keys _ _ c _ (hs j)) as [c1 x1] eqn:E1.
  assert (T1 : touched (removing hs) (fun d => d = j) h (put_cgka h j c1)). { eapply touched_put; [reflexivity|exact Ec|]. right. eauto. }
  assert (T1' : touched (removing hs) (fun d => d ∈ j :: docs) h (put_cgka h j c1)). { eapply touched_weaken; [|exact T1]. intros d ->. left. }
  destruct x1 as [ops|e| |]; try (intros Q; injection Q as <- _; exact T1').
  destruct (remove_from_docs _ _ _ (put_cgka h j c1) _ _ _ _) as [h2 x2] eqn:E2. intros Q. assert (h' = h2) as -> by (destruct x2; injection Q; auto).
  eapply touched_weaken; [|eapply touched_trans; [|exact T1|eapply IH; eauto]]; [intros d [->|Hd]; [left|right; exact Hd]|intros d -> Hd; contradiction].
Qed.
Lemma revoke_member_touched h i target retain content sigs hs h' x : hive_revoke_member order ho ro h i target retain content sigs hs = (h', x) -> touched (removing hs) (fun _ => True) h h'.
Proof.
  unfold hive_revoke_member. assert (Still : forall z : client * dres (list rev * list dlg * list dop), (h, z.2) = (h', x) -> touched (removing hs) (fun _ => True) h h') by (intros z Q; injection Q as <- _; apply touched_same; reflexivity).
  destruct (any_loop _ h); [intros Q; injection Q as <- _; apply touched_same; reflexivity|]. destruct (h_groups h !! i) as [g|].
  - destruct (behind _ _ _) as [ids|]; [|intros Q; injection Q as <- _; apply touched_same; reflexivity].
    destruct (revoke_member _ _ _ _ _ _ _ _) as [[[g' rs] ds]|e]; [|intros Q; injection Q as <- _; apply touched_same; reflexivity].
    destruct (revoking_hangs _ _ _ _ _); [intros Q; injection Q as <- _; apply touched_same; reflexivity|]. cbv zeta.
    assert (Eq : h_cg (put_made (put_group h i g') ds rs) = h_cg h) by (rewrite (proj2 (put_made_core _ _ _)); reflexivity). set (h1 := put_made _ _ _) in *.
    destruct (bool_decide _); [intros Q; injection Q as <- _; apply touched_same, Eq|].
    destruct (remove_from_docs _ _ _ h1 _ _ _ _) as [h2 x2] eqn:E2. intros Q. assert (h' = h2) as -> by (destruct x2; injection Q; auto). eapply touched_cg; [exact Eq|].
    eapply touched_weaken; [|eapply remove_from_docs_touched; [apply order_nodup|exact E2]]. auto.
  - destruct (h_docs h !! i) as [g|]; [|intros Q; injection Q as <- _; apply touched_same; reflexivity].
    destruct (behind _ _ _) as [ids|]; [|intros Q; injection Q as <- _; apply touched_same; reflexivity].
    destruct (revoke_member _ _ _ _ _ _ _ _) as [[[g' rs] ds]|e]; [|intros Q; injection Q as <- _; apply touched_same; reflexivity].
    destruct (revoking_hangs _ _ _ _ _); [intros Q; injection Q as <- _; apply touched_same; reflexivity|]. cbv zeta.
    assert (Eq : h_cg (put_made (put_doc h i g') ds rs) = h_cg h) by (rewrite (proj2 (put_made_core _ _ _)); reflexivity). set (h1 := put_made _ _ _) in *.
    destruct (group_individual_ids _ _ _) as [still|]; [|intros Q; injection Q as <- _; apply touched_same, Eq].
    destruct (order (ids ∖ still)) as [|a l]; [intros Q; injection Q as <- _; apply touched_same, Eq|].
    destruct (cgka_of h1 i) as [c|] eqn:Ec; [|intros Q; injection Q as <- _; apply touched_same, Eq].
    destruct (remove_keys _ _ c (a :: l) (hs i)) as [c1 x1] eqn:E1. intros Q. assert (h' = put_cgka h1 i c1) as -> by (destruct x1; injection Q; auto).
    eapply touched_cg; [exact Eq|]. eapply touched_put; [exact I|exact Ec|]. left. eauto.
Qed.
End calls.

(** ** Teams *)
Lemma pairs_kept ho ro k x o : cs_pairs (doc_receive ho ro k x o).1 = cs_pairs x.
Proof. unfold doc_receive. cbv zeta. repeat case_match; reflexivity. Qed.
Lemma docs_kept ho ro k x o j : j <> do_doc o -> cs_docs (doc_receive ho ro k x o).1 !! j = cs_docs x !! j.
Proof. intros N. unfold doc_receive. cbv zeta. repeat case_match; cbn [fst cs_docs]; rewrite ?lookup_insert_ne by congruence; reflexivity. Qed.
Section team.
Context (order : nat -> gset nat -> list nat) (ho : nat -> gset digest -> list digest) (ro : nat -> gset (member_id * nat) -> list (member_id * nat)).
Context (pick : nat -> client -> ident -> ident -> share_key) (doc_content : nat -> ident -> bool).
Context (HO : forall r, some_order (order r)) (HH : forall r, some_order (ho r)) (HR : forall r, some_order (ro r)).
Notation reach := (net_reachable ho ro).
Notation step := (net_step ho ro).

Lemma rep_of t d r h : tm_clients t !! r = Some h -> n_reps (seen_as t d) !! r = cgka_of h d.
Proof. intros E. cbn. rewrite lookup_omap, E. reflexivity. Qed.
Lemma went_some t r h d c : cgka_of h d = Some c -> seen_as (went t r h) d = moved (seen_as t d) r c.
Proof. intros E. unfold seen_as, went, moved. cbn. unfold contents, known_ops. cbn. rewrite (omap_insert_Some (fun h => cgka_of h d) (tm_clients t) r h c E), E. reflexivity. Qed.
Lemma went_none t r h h' d : tm_clients t !! r = Some h -> cgka_of h d = None -> cgka_of h' d = None -> seen_as (went t r h') d = seen_as t d.
Proof.
  intros E N N'. unfold seen_as, went. cbn. unfold contents, known_ops. cbn. rewrite (omap_insert_None (fun h => cgka_of h d) (tm_clients t) r h' N'), N', (right_id_L ∅ (∪)).
  rewrite delete_notin; [reflexivity|]. rewrite lookup_omap, E. exact N.
Qed.
Definition team_good (t : team) : Prop :=
  (forall d, seen_as t d = Net ∅ ∅ [] \/ reach (seen_as t d)) /\ forall r h, tm_clients t !! r = Some h -> good_sks (cs_pairs (h_cg h)).
Lemma went_same t r h h' d : team_good t -> tm_clients t !! r = Some h -> cgka_of h' d = cgka_of h d -> seen_as (went t r h') d = seen_as t d.
Proof.
  intros [G _] E Eq. destruct (cgka_of h d) as [c|] eqn:Ec; [|eapply went_none; eauto]. rewrite (went_some _ _ _ _ _ Eq). pose proof (rep_of t d r h E) as Rp. rewrite Ec in Rp.
  apply moved_same; [exact Rp|]. destruct (G d) as [Z|R]; [rewrite Z in Rp; discriminate|]. apply (no_sub _ _ _ (net_reachable_ok ho ro HH HR _ R) _ _ Rp).
Qed.
(** From nothing to something, or by steps of the network. *)
Definition onward (n n' : network) : Prop := (n = Net ∅ ∅ [] /\ (n' = n \/ reach n')) \/ (reach n /\ rtc step n n').
Definition team_on (t t' : team) : Prop := (forall d, onward (seen_as t d) (seen_as t' d)) /\ forall r h, tm_clients t' !! r = Some h -> good_sks (cs_pairs (h_cg h)).
Lemma onward_refl n : n = Net ∅ ∅ [] \/ reach n -> onward n n.
Proof. intros [->|R]; [left; auto|right; split; [exact R|reflexivity]]. Qed.
Lemma went_good t r h h' : team_good t -> tm_clients t !! r = Some h -> good_sks (cs_pairs (h_cg h')) ->
  (forall d, cgka_of h' d = cgka_of h d \/ exists c', cgka_of h' d = Some c' /\ onward (seen_as t d) (moved (seen_as t d) r c')) -> team_on t (went t r h').
Proof.
  intros G E P D. split.
  - intros d. destruct (D d) as [Eq|(c' & Eq & Rc)]; [rewrite (went_same _ _ _ _ _ G E Eq); apply onward_refl, G|rewrite (went_some _ _ _ _ _ Eq); exact Rc].
  - intros r' h1. cbn. rewrite lookup_insert_Some. intros [[<- <-]|[_ Q]]; [exact P|exact (proj2 G _ _ Q)].
Qed.
Lemma live t d r c : team_good t -> n_reps (seen_as t d) !! r = Some c -> reach (seen_as t d).
Proof. intros [G _] E. destruct (G d) as [Z|R]; [rewrite Z in E; discriminate|exact R]. Qed.
Lemma went_touched t r h h' run : team_good t -> tm_clients t !! r = Some h -> touched run (fun _ => True) h h' ->
  (forall d c c', reach (seen_as t d) -> n_reps (seen_as t d) !! r = Some c -> run d c c' -> goes ho ro (seen_as t d) r c c') -> team_on t (went t r h').
Proof.
  intros G E [P T] Rn. eapply went_good; [exact G|exact E|rewrite P; exact (proj2 G _ _ E)|]. intros d. destruct (T d) as [Eq|(_ & c & c' & Ec & Ec' & Rd)]; [left; exact Eq|right].
  exists c'. split; [exact Ec'|]. pose proof (rep_of t d r h E) as Rp. rewrite Ec in Rp. pose proof (live _ _ _ _ G Rp) as R. right. split; [exact R|]. apply (Rn d c c' R Rp Rd).
Qed.
Lemma went_one t r h d c c' (h' := put_cgka h d c') : team_good t -> tm_clients t !! r = Some h -> cgka_of h d = Some c ->
  (reach (seen_as t d) -> n_reps (seen_as t d) !! r = Some c -> rtc step (seen_as t d) (moved (seen_as t d) r c')) -> team_on t (went t r h').
Proof.
  intros G E Ec St. eapply went_good; [exact G|exact E|exact (proj2 G _ _ E)|]. intros d'. unfold h'. rewrite cgka_put. destruct (decide (d' = d)) as [->|N]; [right|left; reflexivity].
  exists c'. split; [reflexivity|]. pose proof (rep_of t d r h E) as Rp. rewrite Ec in Rp. right. split; [exact (live _ _ _ _ G Rp)|]. exact (St (live _ _ _ _ G Rp) Rp).
Qed.
Lemma went_idle t r h h' : team_good t -> tm_clients t !! r = Some h -> h_cg h' = h_cg h -> team_on t (went t r h').
Proof. intros G E Q. eapply went_good; [exact G|exact E|rewrite Q; exact (proj2 G _ _ E)|]. intros d. left. unfold cgka_of. rewrite Q. reflexivity. Qed.

Lemma other_events (h : client) x h' y r : match x with ECgka _ => False | _ => True end ->
  receive_event (order r) doc_content do_doc do_ok (doc_receive (ho r) (ro r)) h x = (h', y) -> h_cg h' = h_cg h.
Proof.
  intros O R. destruct x as [o|o|d|r']; cbn [receive_event] in R; [|destruct O| |].
  - unfold receive_key_event in R. destruct (PrekeyModel.receive_prekey_op _ _). injection R as <- _. reflexivity.
  - unfold receive_dlg in R. repeat match type of R with
        | (if ?b then _ else _) = _ => destruct b
        | match ?m with _ => _ end = _ => destruct m
        | (let _ := _ in _) = _ => cbv zeta in R
        end; injection R as <- _; try reflexivity; destruct (doc_content _ _); reflexivity.
  - unfold receive_rev in R. repeat match type of R with
        | (if ?b then _ else _) = _ => destruct b
        | match ?m with _ => _ end = _ => destruct m
        | (let _ := _ in _) = _ => cbv zeta in R
        end; injection R as <- _; try reflexivity; destruct (doc_content _ _); reflexivity.
Qed.

Lemma step_on t t' : team_good t -> team_step order ho ro pick doc_content t t' -> team_on t t'.
Proof.
  intros G S. destruct S as [r h i parents content h' x E Q|r h i parents content sk h0 hs hu rng h' x E Z ND Q|r h i who can content s hs h' x E U Q|r h i target retain content sigs hs h' x E U Q|r h d sk x rng h' y E U Q|r h d ref content preds sk x rng h' e o E U Q|r h d ref content preds sk x rng h' y E U Q|r h d e h' y E He Q|r h x h' y E Ge Q|r h make sk h' o E Q|r h o E|r h l E|r h l E Gl].
  - unfold hive_generate_group in Q. destruct (generate_group _ _ _ _) as [g|]; injection Q as <- _; apply (went_idle _ _ _ _ G E); [|reflexivity].
    rewrite (proj2 (put_made_core _ _ _)). reflexivity.
  - unfold hive_generate_doc in Q. assert (Idle : forall z, (h, DErr z) = (h', x) -> team_on t (went t r h')) by (intros z Q'; injection Q' as <- _; apply (went_idle _ _ _ _ G E); reflexivity).
    destruct (generate_group _ _ _ _) as [g|]; [|eapply Idle, Q]. destruct (prekey_individuals _ _ _ _ _) as [s|]; [|eapply Idle, Q]. cbv zeta in Q.
    destruct (cgka_from_init _ _ _) as [c|z| |] eqn:E0; try (eapply Idle, Q). destruct (add_keys _ _ _ _ _) as [c1 x1] eqn:E1. destruct x1 as [ops|z| |]; try (eapply Idle, Q).
    destruct (cgka_update _ _ c1 sk hu rng) as [c2 x2] eqn:E2. destruct x2 as [[[k op] tr]|z| |]; try (eapply Idle, Q).
    pose proof (new_goes ho ro HH HR r i sk h0 c _ hs c1 _ hu rng c2 _ ND E0 E1 E2) as R2. clear Idle. injection Q as <- _.
    set (h1 := put_made _ _ _). assert (Eq : h_cg h1 = h_cg h) by (unfold h1; rewrite (proj2 (put_made_core _ _ _)); reflexivity). clearbody h1.
    eapply went_good; [exact G|exact E|change (good_sks (cs_pairs (h_cg h1))); rewrite Eq; exact (proj2 G _ _ E)|]. intros d. rewrite cgka_put. destruct (decide (d = i)) as [->|N]; [right|left; unfold cgka_of; rewrite Eq; reflexivity].
    exists c2. split; [reflexivity|]. destruct (proj1 G i) as [Zi|R]; [rewrite Zi; left; auto|]. exfalso. destruct (net_init ho ro _ R) as (hh & id & pk & I). cbn in I. rewrite Z in I. discriminate.
  - eapply went_touched; [exact G|exact E|eapply add_member_touched; [apply HO|exact Q]|]. intros d c c' R Rp (l & y & A & _). destruct (U d) as [ND Un]. eapply add_keys_goes; eauto.
  - eapply went_touched; [exact G|exact E|eapply revoke_member_touched; [apply HO|exact Q]|]. intros d c c' R Rp [(l & y & A)|(l & y & A)]; destruct (U d) as [ND Un]; [eapply remove_keys_goes|eapply try_remove_keys_goes]; eauto.
  - unfold hive_update in Q. destruct (cgka_of h d) as [c|] eqn:Ec; [|injection Q as <- _; apply (went_idle _ _ _ _ G E); reflexivity]. destruct (cgka_update _ _ c sk x rng) as [c' z] eqn:Eu. injection Q as <- _.
    eapply went_one; [exact G|exact E|exact Ec|]. intros R Rp. apply rtc_once. eapply ns_update; [exact Rp|exact U|exact Eu].
  - unfold hive_encrypt in Q. destruct (cgka_of h d) as [c|] eqn:Ec; [|discriminate]. destruct (new_app_secret_for _ _ c _ _ _ _ _ _) as [c' z] eqn:Eu. destruct z as [[s p]| | |]; cbn in Q; try discriminate. injection Q as <- <- _.
    pose proof (rep_of t d r h E) as Rp. rewrite Ec in Rp. pose proof (live _ _ _ _ G Rp) as R.
    assert (St : rtc step (seen_as t d) (sent (moved (seen_as t d) r c') [app_encrypt s content])). { apply rtc_once. eapply ns_encrypt; [exact Rp|exact U|exact Eu]. }
    assert (Eq' : forall d', cgka_of (put_cgka h d c') d' = if decide (d' = d) then Some c' else cgka_of h d') by (intros d'; apply cgka_put).
    split; [|intros r' h1; cbn; rewrite lookup_insert_Some; intros [[<- <-]|[_ L]]; [exact (proj2 G _ _ E)|exact (proj2 G _ _ L)]].
    intros d'. assert (Es : seen_as (wrote (went t r (put_cgka h d c')) d (app_encrypt s content)) d' = if decide (d = d') then sent (seen_as (went t r (put_cgka h d c')) d') [app_encrypt s content] else seen_as (went t r (put_cgka h d c')) d').
    { unfold seen_as, wrote, sent, contents. cbn. destruct (decide (d = d')); reflexivity. }
    rewrite Es. destruct (decide (d = d')) as [<-|N].
    + right. rewrite (went_some t r (put_cgka h d c') d c'); [split; [exact R|exact St]|]. rewrite Eq', decide_True; reflexivity.
    + rewrite (went_same t r h (put_cgka h d c') d' G E); [apply onward_refl, G|]. rewrite Eq', decide_False by congruence. reflexivity.
  - unfold hive_encrypt in Q. destruct (cgka_of h d) as [c|] eqn:Ec; [|injection Q as <- _; apply (went_idle _ _ _ _ G E); reflexivity]. destruct (new_app_secret_for _ _ c _ _ _ _ _ _) as [c' z] eqn:Eu.
    assert (Nz : forall s, z <> Ok s) by (intros [s p] ->; cbn in Q; discriminate). assert (h' = put_cgka h d c') as -> by (destruct z as [[s p]| | |]; cbn in Q; [discriminate|injection Q; auto..]).
    eapply went_one; [exact G|exact E|exact Ec|]. intros R Rp. apply rtc_once. eapply ns_encrypt_fail; [exact Rp|exact U|exact Eu|exact Nz].
  - unfold hive_decrypt in Q. destruct (cgka_of h d) as [c|] eqn:Ec; [|injection Q as <- _; apply (went_idle _ _ _ _ G E); reflexivity]. destruct (decryption_key_for _ c e) as [c' z] eqn:Eu.
    assert (h' = put_cgka h d c') as -> by (destruct z; injection Q; auto).
    eapply went_one; [exact G|exact E|exact Ec|]. intros R Rp. apply rtc_once. eapply ns_decrypt; [exact Rp| |exact Eu].
    cbn. apply elem_of_list_omap. exists (d, e). split; [exact He|]. cbn. rewrite decide_True; reflexivity.
  - destruct x as [o|o|dl|rv]; try (eapply went_idle; [exact G|exact E|eapply other_events; [|exact Q]; exact I]).
    cbn [receive_event] in Q. unfold receive_cgka in Q. destruct (do_ok o) eqn:Ok; cbn [negb] in Q; [|injection Q as <- _; apply (went_idle _ _ _ _ G E); reflexivity].
    destruct (h_docs h !! do_doc o) as [g|]; [|injection Q as <- _; apply (went_idle _ _ _ _ G E); reflexivity]. destruct (Ge Ok) as [Op Pb].
    pose proof (pairs_kept (ho r) (ro r) (h_keys h) (h_cg h) o) as Pk. pose proof (docs_kept (ho r) (ro r) (h_keys h) (h_cg h) o) as Dk.
    assert (R : reach (seen_as t (do_doc o))). { destruct (proj1 G (do_doc o)) as [Zi|R]; [|exact R]. exfalso. assert (Zo : n_ops (seen_as t (do_doc o)) = ∅) by (rewrite Zi; reflexivity). cbn in Zo. rewrite Zo in Op. discriminate. }
    pose proof (doc_receive_goes ho ro HH HR (seen_as t (do_doc o)) r (h_keys h) (h_cg h) o R (rep_of t _ r h E) (proj2 G _ _ E) Op Pb) as Dg.
    destruct (doc_receive _ _ _ _ _) as [z ok]. cbn [fst] in *. injection Q as <- _.
    eapply went_good; [exact G|exact E|change (good_sks (cs_pairs z)); rewrite Pk; exact (proj2 G _ _ E)|]. intros d. unfold cgka_of. cbn [put_cg h_cg].
    destruct (decide (d = do_doc o)) as [->|N]; [|left; apply Dk, N]. destruct Dg as [Dg|(c' & A & B)]; [left; exact Dg|right; exists c'; split; [exact A|right; split; [exact R|exact B]]].
  - unfold make_prekey in Q. destruct (ks_indies _ !! _) as [y|]; [|discriminate]. destruct (make _ _) as [a p]. injection Q as <- _.
    eapply went_good; [exact G|exact E|cbn; apply insert_sks; [exact (proj2 G _ _ E)|reflexivity]|]. intros d. left. reflexivity.
  - apply (went_idle _ _ _ _ G E). reflexivity.
  - apply (went_idle _ _ _ _ G E). reflexivity.
  - eapply went_good; [exact G|exact E| |intros d; left; reflexivity]. intros pk sk. cbn [put_cg h_cg cs_pairs]. rewrite lookup_union_Some_raw. intros [X|[_ X]]; [exact (Gl _ _ X)|exact (proj2 G _ _ E _ _ X)].
Qed.
Lemma on_good t t' : team_on t t' -> team_good t'.
Proof. intros [A B]. split; [|exact B]. intros d. destruct (A d) as [[Q R]|[R S]]; [destruct R as [->|R]; auto|right; eapply steps_reachable; eauto]. Qed.
Lemma team_reachable_good t : team_reachable order ho ro pick doc_content t -> team_good t.
Proof.
  induction 1 as [t St Z C|t t' R IH S]; [|eapply on_good, step_on; eauto]. split.
  - intros d. left. unfold seen_as. rewrite Z. unfold contents. rewrite C. cbn. f_equal. apply map_eq. intros r. rewrite lookup_omap, lookup_empty. destruct (tm_clients t !! r) as [h|] eqn:E; [|reflexivity].
    cbn. unfold cgka_of. destruct (St r h E) as (_ & _ & -> & _). reflexivity.
  - intros r h E. apply (St r h E).
Qed.
Lemma steps_on t t' : team_good t -> rtc (team_step order ho ro pick doc_content) t t' -> team_on t t'.
Proof.
  intros G S. revert G. induction S as [t|t t1 t2 S _ IH]; intros G; [split; [intros d; apply onward_refl, G|apply G]|].
  pose proof (step_on _ _ G S) as O1. pose proof (IH (on_good _ _ O1)) as O2. destruct O1 as [A _], O2 as [B P]. split; [|exact P]. intros d.
  destruct (A d) as [[E1 R1]|[R1 S1]]; [left; split; [exact E1|]|right; split; [exact R1|]].
  - destruct (B d) as [[E2 R2]|[R2 S2]]; [destruct R2 as [-> |R2]; [left; congruence|right; exact R2]|right; eapply steps_reachable; eauto].
  - destruct (B d) as [[E2 R2]|[R2 S2]]; [|etrans; eauto]. exfalso. pose proof (steps_reachable _ _ _ _ R1 S1) as Rz. destruct (net_init ho ro _ Rz) as (hh & id & pk & I). rewrite E2 in I. discriminate.
Qed.
End team.
