(** Proofs about operations of group keys that are ingested in any order. *)
From Coq Require Import Arith Lia.
From stdpp Require Import base list gmap relations.
From Verif Require Import ResModel KeysModel TreeModel TreeInv OpsModel OpsSpec OpsInv CgkaModel CgkaSpec CgkaProofs NetSpec NetProofs NetInv GrowSpec ReadSpec ReadRoster.
From Verif Require Import AccessModel GroupModel PrekeyModel HiveModel HiveSpec DocModel DocKeys TeamSpec TeamProofs TeamPropsProofs FailSpec FailKeys ArriveModel ArriveSpec.
Notation known_ops := TeamSpec.known_ops.

Lemma from_init_ok id pk op : exists c, cgka_from_init id pk op = Ok c /\ g_ops (c_graph c) = {[ so_hash op := op ]}.
Proof.
  destruct (tree_new_inv id pk) as (t & E & _). unfold cgka_from_init. rewrite E. cbn. eexists. split; [reflexivity|]. reflexivity.
Qed.
Lemma closed_known c o p : GInv (c_graph c) -> g_ops (c_graph c) !! so_hash o = Some o -> p ∈ op_preds (so_op o) -> is_Some (g_ops (c_graph c) !! p).
Proof. intros V E Hp. apply (gi_closed _ V p (so_hash o)). exists o. auto. Qed.
Lemma not_ready_merge ho ro c op : GInv (c_graph c) -> (forall o, g_ops (c_graph c) !! so_hash op = Some o -> o = op) ->
  ~ (forall p, p ∈ op_preds (so_op op) -> is_Some (g_ops (c_graph c) !! p)) -> merge_concurrent_operation ho ro c op = (c, Err EOutOfOrderOperation).
Proof.
  intros V U N. unfold merge_concurrent_operation.
  assert (C : contains_op (c_graph c) (so_hash op) = false).
  { apply contains_op_false. destruct (g_ops (c_graph c) !! so_hash op) as [o|] eqn:E; [|reflexivity]. exfalso. apply N. intros p Hp. rewrite (U _ eq_refl) in E. eapply closed_known; eauto. }
  rewrite C. destruct (contains_predecessors (c_graph c) (op_preds (so_op op))) eqn:P; [|reflexivity]. exfalso. apply N. apply contains_preds_true, P.
Qed.

Section step.
Context (ho : nat -> gset digest -> list digest) (ro : nat -> gset (member_id * nat) -> list (member_id * nat)).
Context (HH : forall r, some_order (ho r)) (HR : forall r, some_order (ro r)).
Notation reach := (net_reachable ho ro).
Definition knows (c : option cgka) : gmap digest signed_op := match c with Some c => g_ops (c_graph c) | None => ∅ end.
Definition ready (c : option cgka) (op : signed_op) : Prop := forall p, p ∈ op_preds (so_op op) -> is_Some (knows c !! p).
Lemma ready_dec c op : ready c op \/ ~ ready c op.
Proof.
  unfold ready. destruct (decide (set_Forall (fun p => is_Some (knows c !! p)) (op_preds (so_op op)))) as [H|H]; [left; exact H|right; exact H].
Qed.

(** Merging when ready, for any owner. *)
Lemma merge_ready n r c op : reach n -> orderly (n_ops n) -> n_reps n !! r = Some c -> n_ops n !! so_hash op = Some op -> ready (Some c) op ->
  exists c' b, merge_concurrent_operation (ho r) (ro r) c op = (c', Ok b) /\ g_ops (c_graph c') = <[so_hash op := op]> (g_ops (c_graph c)).
Proof. intros R Od E N K. destruct (every_receive ho ro HH HR n R Od r c (so_hash op) op E N K) as (c' & b & Q & G & _). eauto. Qed.
Lemma rep_facts n r c op : reach n -> n_reps n !! r = Some c -> n_ops n !! so_hash op = Some op ->
  GInv (c_graph c) /\ forall o, g_ops (c_graph c) !! so_hash op = Some o -> o = op.
Proof.
  intros R E N. pose proof (net_reachable_ok ho ro HH HR _ R) as K. split; [eapply reachable_ginv, cgka_graph_reachable; [apply HH|exact (no_reach _ _ _ K _ _ E)]|].
  intros o Eo. pose proof (lookup_weaken _ _ _ _ Eo (no_sub _ _ _ K _ _ E)) as Q. congruence.
Qed.

Lemma receive_spec n r k x o : reach n -> orderly (n_ops n) -> n_reps n !! r = cs_docs x !! do_doc o -> good_sks (cs_pairs x) ->
  n_ops n !! so_hash (do_op o) = Some (do_op o) ->
  (forall id pk i ps qs, so_op (do_op o) = CAdd id pk i ps qs ->
     (id = ks_public k -> pk = pub public_secret) /\ (ps = [] -> id <> ks_active k /\ id <> ks_public k)) ->
  let y := doc_receive (ho r) (ro r) k x o in let c := cs_docs x !! do_doc o in
  let key := forall id pk i ps qs, so_op (do_op o) = CAdd id pk i ps qs -> id = ks_active k -> is_Some (cs_pairs x !! pk) in
  (key -> ready c (do_op o) -> y.2 = true /\ knows (cs_docs y.1 !! do_doc o) = <[so_hash (do_op o) := do_op o]> (knows c)) /\
  (~ (key /\ ready c (do_op o)) -> y.2 = false).
Proof.
  intros R Od E Gp N C y c key. subst y. set (op := do_op o) in *.
  assert (PutS : forall c1 : cgka, cs_docs (Cgs (cs_pairs x) (<[do_doc o := c1]> (cs_docs x))) !! do_doc o = Some c1) by (intros; apply lookup_insert).
  assert (Ec : cs_docs x !! do_doc o = c) by reflexivity. clearbody c.
  (* plain *)
  assert (Plain : (ready c op -> exists c1 b, merge_cgka_op (ho r) (ro r) c op = (Some c1, Ok b) /\ g_ops (c_graph c1) = <[so_hash op := op]> (knows c)) /\
    (~ ready c op -> exists c1 e, merge_cgka_op (ho r) (ro r) c op = (c1, Err e))).
  { destruct c as [c|].
    - rewrite Ec in E. destruct (rep_facts n r c op R E N) as [V U]. split.
      + intros K. destruct (merge_ready n r c op R Od E N K) as (c' & b & Q & G). exists c', b. cbn [merge_cgka_op]. rewrite Q. auto.
      + intros K. exists (Some c), EOutOfOrderOperation. cbn [merge_cgka_op]. rewrite (not_ready_merge _ _ c op V U K). reflexivity.
    - split.
      + intros K. assert (P0 : op_preds (so_op op) = ∅). { apply elem_of_equiv_empty_L. intros p Hp. destruct (K p Hp) as [z Z]. cbn in Z. rewrite lookup_empty in Z. discriminate. }
        destruct (first_op ho ro HH HR n _ op R N P0) as (id & pk & Ef). cbn [merge_cgka_op]. rewrite Ef. cbn [so_op init_add]. destruct (from_init_ok id pk (SignedOp (so_hash op) (init_add id pk))) as (c1 & Q & G).
        exists c1, true. cbn [so_hash] in *. rewrite Q. split; [reflexivity|]. rewrite G. cbn [knows so_hash]. rewrite insert_empty. reflexivity.
      + intros K. cbn [merge_cgka_op]. destruct (so_op op) as [id pk i ps qs|? ? ? ?|? ? ?] eqn:Eo; [|eauto|eauto]. destruct ps as [|p ps]; [|eauto]. exfalso. apply K. intros p Hp. rewrite Eo in Hp. cbn in Hp. apply not_elem_of_empty in Hp. contradiction. }
  (* invite *)
  assert (Inv : forall id pk i ps qs sk, so_op op = CAdd id pk i ps qs -> pub sk = pk -> ps <> [] ->
    (ready c op -> exists c1 b, merge_cgka_invite_op (ho r) (ro r) c op sk = (Some c1, Ok b) /\ g_ops (c_graph c1) = <[so_hash op := op]> (knows c)) /\
    (~ ready c op -> exists c1 e, merge_cgka_invite_op (ho r) (ro r) c op sk = (c1, Err e))).
  { intros id pk i ps qs sk Eo Ep Ne. unfold merge_cgka_invite_op. rewrite Eo. destruct c as [c|].
    - rewrite Ec in E. destruct (rep_facts n r c op R E N) as [V U]. assert (Pe : op_preds (so_op op) = list_to_set ps) by (rewrite Eo; reflexivity). split.
      + intros K. assert (Cp : contains_predecessors (c_graph c) (list_to_set ps) = true) by (apply contains_preds_true; rewrite <- Pe; exact K). rewrite Cp. cbn [negb].
        set (c0 := with_new_owner c id _). assert (G0 : goes ho ro n r c c0) by (apply owner_goes; [exact R|exact E|apply insert_sks; [apply (sks_good ho ro HH HR n r c R E)|exact Ep]]).
        assert (R0 : reach (moved n r c0)) by (eapply goes_reach; eauto).
        assert (On : n_ops (moved n r c0) = n_ops n). { cbn. apply union_absorb. apply (no_sub _ _ _ (net_reachable_ok ho ro HH HR _ R) _ _ E). }
        destruct (merge_ready (moved n r c0) r c0 op R0) as (c' & b & Q & G); [rewrite On; exact Od|apply moved_rep|rewrite On; exact N|exact K|]. cbn [merge_cgka_op]. rewrite Q. exists c', b. auto.
      + intros K. destruct (contains_predecessors (c_graph c) (list_to_set ps)) eqn:Cp; [|cbn [negb]; eauto]. exfalso. apply K. intros p Hp. rewrite Pe in Hp. exact (proj1 (contains_preds_true _ _) Cp p Hp).
    - split; [|eauto]. intros K. exfalso. destruct ps as [|p ps]; [congruence|]. destruct (K p) as [z Z]; [rewrite Eo; cbn; set_solver|]. cbn in Z. rewrite lookup_empty in Z. discriminate. }
  unfold doc_receive. cbv zeta. fold op. fold op in key. rewrite Ec.
  assert (PlainEnd : let y := (let '(c1, z) := merge_cgka_op (ho r) (ro r) c op in (match c1 with Some c1 => Cgs (cs_pairs x) (<[do_doc o := c1]> (cs_docs x)) | None => x end, match z with Ok _ => true | _ => false end)) in
    (ready c op -> y.2 = true /\ knows (cs_docs y.1 !! do_doc o) = <[so_hash op := op]> (knows c)) /\ (~ ready c op -> y.2 = false)).
  { cbv zeta. destruct Plain as [A B]. split.
    - intros K. destruct (A K) as (c1 & b & -> & G). cbn [fst snd]. rewrite PutS. cbn [knows]. auto.
    - intros K. destruct (B K) as (c1 & e & ->). destruct c1; reflexivity. }
  cbv zeta in PlainEnd. destruct PlainEnd as [PE1 PE2].
  destruct (so_op op) as [id pk i ps qs|? ? ? ?|? ? ?] eqn:Eo;
    [|split; [intros _; exact PE1|intros X; apply PE2; intros Y; apply X; split; [intros ? ? ? ? ? Q; discriminate|exact Y]]..].
  destruct (C _ _ _ _ _ eq_refl) as (C2 & C3).
  assert (Kf : id <> ks_active k -> key) by (intros Na id' pk' i' ps' qs' Q Z; injection Q as -> _ _ _ _; contradiction).
  destruct (Nat.eqb_spec id (ks_active k)) as [Ea|Na].
  - destruct (cs_pairs x !! pk) as [sk|] eqn:Ek; [|split; [intros Ky; destruct (Ky _ _ _ _ _ eq_refl Ea) as [z Z]; congruence|reflexivity]].
    assert (Ky : key) by (intros id' pk' i' ps' qs' Q _; injection Q as _ -> _ _ _; eauto). assert (Ne : ps <> []) by (intros Z; destruct (C3 Z); congruence). destruct (Inv _ _ _ _ _ sk eq_refl (Gp _ _ Ek) Ne) as [A B]. split.
    + intros _ K. destruct (A K) as (c1 & b & -> & G). cbn [fst snd]. rewrite PutS. cbn [knows]. auto.
    + intros X. assert (K : ~ ready c op) by tauto. destruct (B K) as (c1 & e & ->). destruct c1; reflexivity.
  - destruct (Nat.eqb_spec id (ks_public k)) as [Eu|Nu]; [|split; [intros _; exact PE1|intros X; apply PE2; intros Y; apply X; split; [apply Kf, Na|exact Y]]].
    assert (Ne : ps <> []) by (intros Z; destruct (C3 Z); congruence). destruct (Inv _ _ _ _ _ public_secret eq_refl (eq_sym (C2 Eu)) Ne) as [A B]. specialize (Kf Na). split.
    + intros _ K. destruct (A K) as (c1 & b & -> & G). cbn [reset_cgka_owner fst snd]. rewrite PutS. cbn [knows with_new_owner c_graph]. auto.
    + intros X. assert (K : ~ ready c op) by tauto. destruct (B K) as (c1 & e & ->). destruct c1; reflexivity.
Qed.
End step.

(** ** The operations of a network are well-founded *)
Lemma acc_more (ops ops' : gmap digest signed_op) : ops ⊆ ops' -> (forall p h, pred_of (all_ops ops) p h -> is_Some (ops !! p)) ->
  forall h, Acc (pred_of (all_ops ops)) h -> is_Some (ops !! h) -> Acc (pred_of (all_ops ops')) h.
Proof.
  intros Su Cl h A. induction A as [h _ IH]. intros [o E]. constructor. intros p (o' & E' & Hp). cbn in E'. rewrite (lookup_weaken _ _ _ _ E Su) in E'. injection E' as <-.
  assert (P : pred_of (all_ops ops) p h) by (exists o; auto). apply IH; [exact P|exact (Cl _ _ P)].
Qed.
Lemma acc_graph g (ops : gmap digest signed_op) : GInv g -> g_ops g ⊆ ops -> forall h, is_Some (g_ops g !! h) -> Acc (pred_of (all_ops ops)) h.
Proof.
  intros V Su h. destruct (gi_rank _ V) as [rank Hr]. induction (well_founded_ltof _ rank h) as [h _ IH]. intros [o E]. constructor. intros p (o' & E' & Hp). cbn in E'. rewrite (lookup_weaken _ _ _ _ E Su) in E'. injection E' as <-.
  assert (P : pred_of g p h) by (exists o; auto). apply IH; [exact (Hr _ _ P)|exact (gi_closed _ V _ _ P)].
Qed.
Section wf.
Context (ho : nat -> gset digest -> list digest) (ro : nat -> gset (member_id * nat) -> list (member_id * nat)).
Context (HH : forall r, some_order (ho r)) (HR : forall r, some_order (ro r)).
Lemma step_made n n' : net_step ho ro n n' -> exists r c, n_reps n' !! r = Some c /\ n_ops n' = n_ops n ∪ g_ops (c_graph c).
Proof. intros S. destruct S as [r ? ? ? c|r c ? sks|r ? c|r ? c|r ? c|r ? c|r ? c|r ? c|r ? c]; first [exists r, c; split; [apply lookup_insert|reflexivity]|exists r; eexists; split; [apply lookup_insert|reflexivity]]. Qed.
Lemma net_wf n : net_reachable ho ro n -> forall h, is_Some (n_ops n !! h) -> Acc (pred_of (all_ops (n_ops n))) h.
Proof.
  induction 1 as [r id pk h0 c Q|n n' R IH S].
  - intros h [o E]. constructor. intros p (o' & E' & Hp). cbn in E', E. apply lookup_singleton_Some in E' as [_ <-]. cbn in Hp. apply not_elem_of_empty in Hp. contradiction.
  - destruct (step_made _ _ S) as (r & c & E & Q). pose proof (net_reachable_ok ho ro HH HR _ R) as K. pose proof (net_reachable_ok ho ro HH HR _ (nr_step _ _ _ _ R S)) as K'.
    intros h [o Eo]. destruct (n_ops n !! h) as [o1|] eqn:E1.
    + apply (acc_more (n_ops n)); [eapply GrowReceive.step_ops; exact S|intros p x; apply (oo_closed _ (no_ops _ _ _ K))|apply IH; eauto|eauto].
    + apply (acc_graph (c_graph c)); [eapply reachable_ginv, cgka_graph_reachable; [apply HH|exact (no_reach _ _ _ K' _ _ E)]|apply (no_sub _ _ _ K' _ _ E)|].
      rewrite Q in Eo. apply lookup_union_Some_raw in Eo as [Eo|[_ Eo]]; [congruence|eauto].
Qed.
End wf.

(** ** Clients *)
Section clients.
Context (order : nat -> gset nat -> list nat) (ho : nat -> gset digest -> list digest) (ro : nat -> gset (member_id * nat) -> list (member_id * nat)).
Context (pick : nat -> client -> ident -> ident -> share_key) (doc_content : nat -> ident -> bool).
Context (HO : forall r, some_order (order r)) (HH : forall r, some_order (ho r)) (HR : forall r, some_order (ro r)).
Notation reachable := (team_reachable order ho ro pick doc_content).
Notation step := (team_step order ho ro pick doc_content).
Notation good_of := (team_reachable_good order ho ro pick doc_content HO HH HR).
Notation receive r := (receive_event (order r) doc_content do_doc do_ok (doc_receive (ho r) (ro r))).

Lemma known_made t r h d : team_good ho ro t -> tm_clients t !! r = Some h -> known_ops h d ⊆ tm_ops t d.
Proof.
  intros G E. destruct (cgka_of h d) as [c|] eqn:Ec.
  - destruct (at_client ho ro t r h d c G E Ec) as [R Rp]. rewrite (known_some _ _ _ Ec). exact (no_sub _ _ _ (net_reachable_ok ho ro HH HR _ R) _ _ Rp).
  - unfold known_ops. rewrite Ec. apply map_empty_subseteq.
Qed.
Lemma known_hash t r h d x o : team_good ho ro t -> tm_clients t !! r = Some h -> known_ops h d !! x = Some o -> so_hash o = x.
Proof.
  intros G E K. destruct (cgka_of h d) as [c|] eqn:Ec; [|unfold known_ops in K; rewrite Ec, lookup_empty in K; discriminate].
  destruct (at_client ho ro t r h d c G E Ec) as [R Rp]. apply (oo_hash _ (no_ops _ _ _ (net_reachable_ok ho ro HH HR _ R))). cbn. eapply lookup_weaken; [exact K|eapply known_made; eauto].
Qed.
Lemma known_closed t r h d x o p : team_good ho ro t -> tm_clients t !! r = Some h -> known_ops h d !! x = Some o -> p ∈ op_preds (so_op o) -> is_Some (known_ops h d !! p).
Proof.
  intros G E K Hp. destruct (cgka_of h d) as [c|] eqn:Ec; [|unfold known_ops in K; rewrite Ec, lookup_empty in K; discriminate].
  destruct (at_client ho ro t r h d c G E Ec) as [R Rp]. rewrite (known_some _ _ _ Ec) in *. pose proof (no_reach _ _ _ (net_reachable_ok ho ro HH HR _ R) _ _ Rp) as Cr.
  apply (gi_closed _ (reachable_ginv _ (cgka_graph_reachable _ _ _ (HH r) Cr)) p x). exists o. auto.
Qed.
Definition able (h : client) (o : dop) : Prop := opens h (do_op o) /\ forall p, p ∈ op_preds (so_op (do_op o)) -> is_Some (known_ops h (do_doc o) !! p).
Definition has (h : client) (o : dop) : Prop := known_ops h (do_doc o) !! so_hash (do_op o) = Some (do_op o).
Lemma able_dec h o : able h o \/ ~ able h o.
Proof.
  assert (D : opens h (do_op o) \/ ~ opens h (do_op o)).
  { unfold opens. destruct (so_op (do_op o)) as [id pk i ps qs|? ? ? ?|? ? ?]; [|left; discriminate..]. destruct (decide (id = me h)) as [Em|Nm]; [|left; intros ? ? ? ? ? Q Z; injection Q as -> _ _ _ _; contradiction].
    destruct (cs_pairs (h_cg h) !! pk) as [sk|] eqn:Ek; [left; intros ? ? ? ? ? Q _; injection Q as _ -> _ _ _; eauto|right]. intros X. destruct (X _ _ _ _ _ eq_refl Em) as [z Z]. congruence. }
  unfold able. destruct D as [D|D], (ready_dec (cgka_of h (do_doc o)) (do_op o)) as [K|K]; [left; split; [exact D|exact K]|right; intros [_ X]; exact (K X)|right; tauto..].
Qed.

Lemma take_key t r h o : reachable t -> tm_clients t !! r = Some h -> addressed t h (ECgka o) ->
  exists h' y, receive r h (ECgka o) = (h', y) /\ step t (went t r h') /\ (forall d, tm_ops (went t r h') d = tm_ops t d) /\
    h_docs h' = h_docs h /\ h_keys h' = h_keys h /\ cs_pairs (h_cg h') = cs_pairs (h_cg h) /\ h_pending h' = h_pending h /\
    ((able h o /\ y = HDone /\ forall d, known_ops h' d = if decide (d = do_doc o) then <[so_hash (do_op o) := do_op o]> (known_ops h d) else known_ops h d) \/
     (~ able h o /\ y = HFail HCgka /\ forall d, known_ops h' d = known_ops h d)).
Proof.
  intros R E (Ok1 & Nw & [mk Ed] & Od & C). pose proof (good_of t R) as G.
  assert (Rn : net_reachable ho ro (seen_as t (do_doc o))).
  { destruct (proj1 G (do_doc o)) as [Z|X]; [|exact X]. assert (Q : n_ops (seen_as t (do_doc o)) = ∅) by (rewrite Z; reflexivity). cbn in Q. rewrite Q, lookup_empty in Nw. discriminate. }
  pose proof (receive_spec ho ro HH HR (seen_as t (do_doc o)) r (h_keys h) (h_cg h) o Rn Od (rep_of t (do_doc o) r h E) (proj2 G _ _ E) Nw C) as X. cbv zeta in X.
  destruct (doc_receive (ho r) (ro r) (h_keys h) (h_cg h) o) as [x ok] eqn:Q. cbn [fst snd] in X.
  pose proof (pairs_kept (ho r) (ro r) (h_keys h) (h_cg h) o) as Pk. pose proof (docs_kept (ho r) (ro r) (h_keys h) (h_cg h) o) as Dk. rewrite Q in Pk, Dk. cbn [fst] in Pk, Dk.
  assert (Rc : receive r h (ECgka o) = (put_cg h x, if ok then HDone else HFail HCgka)).
  { cbn [receive_event]. unfold receive_cgka. rewrite Ok1, Ed, Q. reflexivity. }
  assert (Gen : genuine t h (ECgka o)) by (intros _; split; [exact Nw|]; intros pk i ps qs Ea; exact (proj1 (C _ _ _ _ _ Ea) eq_refl)).
  assert (Kn : (able h o /\ ok = true /\ forall d, known_ops (put_cg h x) d = if decide (d = do_doc o) then <[so_hash (do_op o) := do_op o]> (known_ops h d) else known_ops h d) \/
     (~ able h o /\ ok = false /\ forall d, known_ops (put_cg h x) d = known_ops h d)).
  { destruct (able_dec h o) as [A|A]; [left|right]; (split; [exact A|]).
    - destruct (proj1 X (proj1 A) (proj2 A)) as [Eo Ek]. split; [exact Eo|]. intros d. destruct (decide (d = do_doc o)) as [-> |N]; [exact Ek|]. unfold known_ops, cgka_of. cbn [put_cg h_cg]. rewrite (Dk d N). reflexivity.
    - pose proof (proj2 X A) as Eo. split; [exact Eo|]. rewrite Eo in Rc. pose proof (receive_key_failed _ _ _ _ _ _ _ _ Rc) as (_ & _ & _ & _ & _ & _ & _ & J & K). intros d. destruct (decide (d = do_doc o)) as [-> |N].
      + unfold key_history in K. unfold known_ops. destruct (cgka_of (put_cg h x) (do_doc o)), (cgka_of h (do_doc o)); cbn in K; try discriminate; congruence.
      + unfold known_ops. rewrite (J d N). reflexivity. }
  exists (put_cg h x), (if ok then HDone else HFail HCgka). split; [exact Rc|]. split; [eapply ts_receive; [exact E|exact Gen|exact Rc]|]. split.
  - intros d. cbn [went tm_ops]. apply union_absorb. destruct Kn as [(_ & _ & K)|(_ & _ & K)]; rewrite K; [|eapply known_made; eauto]. case_decide as D; [subst d|eapply known_made; eauto].
    apply insert_subseteq_l; [exact Nw|eapply known_made; eauto].
  - repeat (split; [first [reflexivity|exact Pk]|]). destruct Kn as [(A & -> & K)|(A & -> & K)]; [left|right]; auto.
Qed.

Section run.
Context (t0 : team) (r : nat) (h0 : client) (W : sevent dop -> Prop).
Record going (t : team) (h : client) : Prop := {
  go_reach : reachable t; go_steps : rtc step t0 t; go_client : tm_clients t !! r = Some h; go_ops d : tm_ops t d = tm_ops t0 d;
  go_docs : h_docs h = h_docs h0; go_keys : h_keys h = h_keys h0; go_pairs : cs_pairs (h_cg h) = cs_pairs (h_cg h0);
  go_from d x o : known_ops h d !! x = Some o -> arrives h0 W d o; go_more d : known_ops h0 d ⊆ known_ops h d }.
Context (AW : forall x, W x -> addressed t0 h0 x).
Lemma going_addressed t h x : going t h -> W x -> addressed t h x.
Proof.
  intros V Hx. specialize (AW x Hx). destruct x as [?|?|?|o]; try exact AW. destruct AW as (A & B & C & D & F). unfold addressed, me. rewrite (go_docs _ _ V), (go_keys _ _ V), (go_ops _ _ V). auto.
Qed.
Lemma going_pending t h l : going t h -> going (went t r (put_pending h l)) (put_pending h l).
Proof.
  intros V. assert (S : step t (went t r (put_pending h l))) by (apply ts_pending, V). constructor.
  - eapply tr_step; [apply V|exact S].
  - eapply rtc_r; [apply V|exact S].
  - apply lookup_insert.
  - intros d. cbn [went tm_ops]. rewrite <- (go_ops _ _ V d). apply union_absorb. apply (known_made t r h d (good_of t (go_reach _ _ V)) (go_client _ _ V)).
  - apply V. - apply V. - apply V. - apply V. - apply V.
Qed.
(** One event. *)
Lemma going_take t h o : going t h -> W (ECgka o) -> exists h' y t', receive r h (ECgka o) = (h', y) /\ going t' h' /\ h_pending h' = h_pending h /\
  (forall d, known_ops h d ⊆ known_ops h' d) /\ ((y = HDone /\ has h' o /\ opens h0 (do_op o)) \/ (y = HFail HCgka /\ ~ able h o /\ forall d, known_ops h' d = known_ops h d)).
Proof.
  intros V Hw. pose proof (good_of t (go_reach _ _ V)) as G. pose proof (going_addressed t h _ V Hw) as Ad. destruct (take_key t r h o (go_reach _ _ V) (go_client _ _ V) Ad) as (h' & y & Q & S & O & D & K & P & Pe & Kn).
  assert (Mo : forall d, known_ops h d ⊆ known_ops h' d).
  { intros d. destruct Kn as [(_ & _ & Kn)|(_ & _ & Kn)]; rewrite Kn; [|reflexivity]. case_decide as Dd; [subst d|reflexivity]. destruct (known_ops h (do_doc o) !! so_hash (do_op o)) as [o1|] eqn:E1; [|apply insert_subseteq, E1].
    rewrite insert_id; [reflexivity|]. pose proof (lookup_weaken _ _ _ _ E1 (known_made t r h (do_doc o) G (go_client _ _ V))) as Z. destruct Ad as (_ & B & _). congruence. }
  exists h', y, (went t r h'). split; [exact Q|]. split; [constructor|].
  - eapply tr_step; [apply V|exact S].
  - eapply rtc_r; [apply V|exact S].
  - apply lookup_insert.
  - intros d. rewrite O. apply V.
  - rewrite D. apply V.
  - rewrite K. apply V.
  - rewrite P. apply V.
  - intros d x o1. destruct Kn as [(A & _ & Kn)|(_ & _ & Kn)]; rewrite Kn; [|apply (go_from _ _ V)]. case_decide as Dd; [subst d|apply (go_from _ _ V)].
    rewrite lookup_insert_Some. intros [[_ <-]|[_ X]]; [|exact (go_from _ _ V _ _ _ X)]. apply ar_handed; [exact Hw|reflexivity|intros id pk i ps qs Ea; unfold me; rewrite <- (go_keys _ _ V), <- (go_pairs _ _ V); exact (proj1 A id pk i ps qs Ea)|]. intros p Hp. destruct (proj2 A p Hp) as [q Hq]. exists q. split; [eapply known_hash; [exact G|apply V|exact Hq]|exact (go_from _ _ V _ _ _ Hq)].
  - intros d. etrans; [apply V|apply Mo].
  - split; [exact Pe|]. split; [exact Mo|]. destruct Kn as [(A & -> & Kn)|(A & -> & Kn)]; [left|right; auto]. split; [reflexivity|]. split; [unfold has; rewrite Kn, decide_True, lookup_insert by reflexivity; reflexivity|].
    intros id pk i ps qs Ea. unfold me. rewrite <- (go_keys _ _ V), <- (go_pairs _ _ V). exact (proj1 A id pk i ps qs Ea).
Qed.
Definition done (h : client) (x : sevent dop) : Prop := match x with ECgka o => has h o /\ opens h0 (do_op o) | _ => False end.
Definition stuck (h : client) (x : sevent dop) : Prop := match x with ECgka o => ~ able h o | _ => False end.
Lemma stuck_same t t' h h' x : going t h -> going t' h' -> (forall d, known_ops h' d = known_ops h d) -> stuck h x -> stuck h' x.
Proof. intros V V' K. destruct x as [?|?|?|o]; cbn; try tauto. unfold able, opens, me. rewrite K, (go_keys _ _ V'), (go_pairs _ _ V'), (go_keys _ _ V), (go_pairs _ _ V). auto. Qed.
Lemma done_more h h' x : (forall d, known_ops h d ⊆ known_ops h' d) -> done h x -> done h' x.
Proof. intros K. destruct x as [?|?|?|o]; cbn; try tauto. unfold has. intros [X O]. split; [|exact O]. eapply lookup_weaken; [exact X|apply K]. Qed.
Lemma only_keys x : W x -> exists o, x = ECgka o.
Proof. intros Hx. specialize (AW x Hx). destruct x; try contradiction. eauto. Qed.
Notation pass := (ingest_pass (order r) doc_content do_doc do_ok (doc_receive (ho r) (ro r))).
Notation loop := (ingest_loop (order r) doc_content do_doc do_ok (doc_receive (ho r) (ro r))).
Lemma going_pass l : forall t h, going t h -> (forall x, x ∈ l -> W x) -> exists h' t' next, pass h l = Some (h', next) /\ going t' h' /\ h_pending h' = h_pending h /\
  (forall d, known_ops h d ⊆ known_ops h' d) /\ (forall x, x ∈ next -> x ∈ l) /\ (forall x, x ∈ l -> x ∈ next \/ done h' x) /\
  length next <= length l /\ (length next = length l -> next = l /\ (forall d, known_ops h' d = known_ops h d) /\ forall x, x ∈ l -> stuck h x).
Proof.
  induction l as [|x l IH]; intros t h V Hl.
  - exists h, t, []. cbn [ingest_pass]. split; [reflexivity|]. split; [exact V|]. split; [reflexivity|]. split; [reflexivity|]. split; [auto|]. split; [auto|]. split; [lia|]. intros _. split; [reflexivity|]. split; [reflexivity|]. intros x Hx. apply elem_of_nil in Hx. contradiction.
  - assert (Hx : W x) by (apply Hl; left). destruct (only_keys x Hx) as [o ->]. destruct (going_take t h o V Hx) as (h1 & y & t1 & Q & V1 & Pe & Mo & Y).
    destruct (IH t1 h1 V1) as (h2 & t2 & next & Q2 & V2 & Pe2 & Mo2 & In2 & Dn2 & Le & Eq); [intros z Hz; apply Hl; right; exact Hz|]. cbn [ingest_pass]. rewrite Q. destruct Y as [[-> Dn]|(-> & Na & Sa)].
    + exists h2, t2, next. split; [exact Q2|]. split; [exact V2|]. split; [congruence|]. split; [intros d; etrans; [apply Mo|apply Mo2]|]. split; [intros z Hz; right; apply In2, Hz|]. split.
      * intros z Hz. apply elem_of_cons in Hz as [-> |Hz]; [right; apply (done_more h1 h2 (ECgka o) Mo2), Dn|apply Dn2, Hz].
      * cbn [length]. split; [lia|]. intros Z. exfalso. lia.
    + rewrite Q2. exists h2, t2, (ECgka o :: next). split; [reflexivity|]. split; [exact V2|]. split; [congruence|]. split; [intros d; etrans; [apply Mo|apply Mo2]|]. split; [intros z Hz; apply elem_of_cons in Hz as [-> |Hz]; [left|right; apply In2, Hz]|]. split.
      * intros z Hz. apply elem_of_cons in Hz as [-> |Hz]; [left; left|]. destruct (Dn2 z Hz); [left; right; assumption|right; assumption].
      * cbn [length]. split; [lia|]. intros Z. destruct Eq as (-> & Ks & St); [lia|]. split; [reflexivity|]. split; [intros d; rewrite Ks; apply Sa|].
        intros z Hz. apply elem_of_cons in Hz as [-> |Hz]; [exact Na|]. apply (stuck_same t1 t h1 h); [exact V1|exact V|intros d; symmetry; apply Sa|apply St, Hz].
Qed.
Lemma going_loop fuel : forall t h l seen, going t h -> (forall x, x ∈ l -> W x) -> length l <= fuel -> h_pending h = seen -> exists h' t' rest, loop fuel h seen l = Some (h', rest) /\ going t' h' /\ h_pending h' = rest /\
  (forall d, known_ops h d ⊆ known_ops h' d) /\ (forall x, x ∈ rest -> x ∈ l /\ stuck h' x) /\ (forall x, x ∈ l -> x ∈ rest \/ done h' x).
Proof.
  induction fuel as [|fuel IH]; intros t h l seen V Hl Lf Pe.
  - destruct l as [|? ?]; [|cbn in Lf; lia]. cbn [ingest_loop ingest_pass]. rewrite Pe. assert (F : filter (fun e => e ∉ seen) seen = []).
    { destruct (filter _ seen) as [|z zs] eqn:Z; [reflexivity|]. exfalso. assert (X : z ∈ filter (fun e => e ∉ seen) seen) by (rewrite Z; left). apply elem_of_list_filter in X as [X1 X2]. contradiction. }
    rewrite F. eexists _, _, []. split; [reflexivity|]. split; [apply going_pending, V|]. split; [reflexivity|]. split; [reflexivity|]. split; intros x Hx; apply elem_of_nil in Hx; contradiction.
  - cbn [ingest_loop]. destruct (going_pass l t h V Hl) as (h1 & t1 & next & Q & V1 & Pe1 & Mo & In & Dn & Le & Eq). rewrite Q. destruct next as [|z zs].
    + rewrite Pe1, Pe. assert (F : filter (fun e => e ∉ seen) seen = []).
      { destruct (filter _ seen) as [|z zs] eqn:Z; [reflexivity|]. exfalso. assert (X : z ∈ filter (fun e => e ∉ seen) seen) by (rewrite Z; left). apply elem_of_list_filter in X as [X1 X2]. contradiction. }
      rewrite F. eexists _, _, []. split; [reflexivity|]. split; [apply going_pending, V1|]. split; [reflexivity|]. split; [exact Mo|]. split; [intros x Hx; apply elem_of_nil in Hx; contradiction|].
      intros x Hx. destruct (Dn x Hx) as [X|X]; [apply elem_of_nil in X; contradiction|right; exact X].
    + set (next := z :: zs) in *. destruct (Nat.eqb_spec (length next) (length l)) as [El|Nl].
      * destruct (Eq El) as (En & Ks & St). exists (put_pending h1 next), (went t1 r (put_pending h1 next)), next. split; [reflexivity|]. split; [apply going_pending, V1|]. split; [reflexivity|]. split; [exact Mo|]. split.
        -- intros x Hx. split; [apply In, Hx|]. apply (stuck_same t _ h (put_pending h1 next) x V (going_pending _ _ _ V1)); [exact Ks|]. apply St, In, Hx.
        -- intros x Hx. left. rewrite En. exact Hx.
      * destruct (IH t1 h1 next seen V1) as (h2 & t2 & rest & Q2 & V2 & P2 & Mo2 & In2 & Dn2); [intros x Hx; apply Hl, In, Hx|lia|congruence|].
        exists h2, t2, rest. split; [exact Q2|]. split; [exact V2|]. split; [exact P2|]. split; [intros d; etrans; [apply Mo|apply Mo2]|]. split; [intros x Hx; destruct (In2 x Hx); split; [apply In; assumption|assumption]|].
        intros x Hx. destruct (Dn x Hx) as [X|X]; [apply Dn2, X|right; exact (done_more h1 h2 x Mo2 X)].
Qed.
Notation ingests := (ingest (order r) doc_content do_doc do_ok (doc_receive (ho r) (ro r))).
Notation ingests_all := (ingest_all (order r) doc_content do_doc do_ok (doc_receive (ho r) (ro r))).
Lemma going_ingest shuffle t h b : (forall l, shuffle l ≡ₚ l) -> going t h -> (forall x, x ∈ b \/ x ∈ h_pending h -> W x) -> exists h' t' rest, ingests shuffle h b = Some (h', rest) /\ going t' h' /\ h_pending h' = rest /\
  (forall d, known_ops h d ⊆ known_ops h' d) /\ (forall x, x ∈ rest -> (x ∈ b \/ x ∈ h_pending h) /\ stuck h' x) /\ (forall x, x ∈ b \/ x ∈ h_pending h -> x ∈ rest \/ done h' x).
Proof.
  intros Sh V Hb. unfold ingest, ingest_from. cbv zeta. set (l := shuffle (remove_dups (b ++ h_pending h))).
  assert (Hl : forall x, x ∈ l <-> x ∈ b \/ x ∈ h_pending h) by (intros x; unfold l; rewrite (Sh _), elem_of_remove_dups, elem_of_app; reflexivity).
  destruct (going_loop (length l) t h l (h_pending h) V) as (h' & t' & rest & Q & V' & P & Mo & In & Dn); [intros x Hx; apply Hb, Hl, Hx|lia|reflexivity|].
  exists h', t', rest. split; [exact Q|]. split; [exact V'|]. split; [exact P|]. split; [exact Mo|]. split; [intros x Hx; destruct (In x Hx); split; [apply Hl; assumption|assumption]|]. intros x Hx. apply Dn, Hl, Hx.
Qed.
Lemma going_all shuffle bs : (forall l, shuffle l ≡ₚ l) -> forall t h, going t h -> (forall x, (exists b, b ∈ bs /\ x ∈ b) \/ x ∈ h_pending h -> W x) -> bs <> [] \/ (forall x, x ∈ h_pending h -> stuck h x) ->
  exists h' t', ingests_all shuffle h bs = Some h' /\ going t' h' /\ (forall d, known_ops h d ⊆ known_ops h' d) /\
  (forall x, x ∈ h_pending h' -> ((exists b, b ∈ bs /\ x ∈ b) \/ x ∈ h_pending h) /\ stuck h' x) /\ (forall x, (exists b, b ∈ bs /\ x ∈ b) \/ x ∈ h_pending h -> x ∈ h_pending h' \/ done h' x).
Proof.
  intros Sh. induction bs as [|b bs IH]; intros t h V Hb Ne.
  - exists h, t. cbn [ingest_all]. split; [reflexivity|]. split; [exact V|]. split; [reflexivity|]. split.
    + intros x Hx. split; [right; exact Hx|]. destruct Ne as [Ne|Ne]; [congruence|apply Ne, Hx].
    + intros x [(b & Hb' & _)|Hx]; [apply elem_of_nil in Hb'; contradiction|left; exact Hx].
  - destruct (going_ingest shuffle t h b Sh V) as (h1 & t1 & rest & Q & V1 & P1 & Mo1 & In1 & Dn1); [intros x [Hx|Hx]; apply Hb; [left; exists b; split; [left|exact Hx]|right; exact Hx]|].
    destruct (IH t1 h1 V1) as (h2 & t2 & Q2 & V2 & Mo2 & In2 & Dn2).
    + intros x [(b' & Hb' & Hx)|Hx]; apply Hb; [left; exists b'; split; [right; exact Hb'|exact Hx]|]. rewrite P1 in Hx. destruct (In1 x Hx) as [[X|X] _]; [left; exists b; split; [left|exact X]|right; exact X].
    + right. intros x Hx. rewrite P1 in Hx. apply In1, Hx.
    + exists h2, t2. cbn [ingest_all]. rewrite Q. split; [exact Q2|]. split; [exact V2|]. split; [intros d; etrans; [apply Mo1|apply Mo2]|]. split.
      * intros x Hx. destruct (In2 x Hx) as [[(b' & Hb' & X)|X] St]; (split; [|exact St]); [left; exists b'; split; [right; exact Hb'|exact X]|]. rewrite P1 in X. destruct (In1 x X) as [[Y|Y] _]; [left; exists b; split; [left|exact Y]|right; exact Y].
      * assert (Mid : forall x, x ∈ b \/ x ∈ h_pending h -> x ∈ h_pending h2 \/ done h2 x).
        { intros x Hx. destruct (Dn1 x Hx) as [X|X]; [apply Dn2; right; rewrite P1; exact X|right; exact (done_more h1 h2 x Mo2 X)]. }
        intros x [(b' & Hb' & Hx)|Hx]; [|apply Mid; right; exact Hx]. apply elem_of_cons in Hb' as [-> |Hb']; [apply Mid; left; exact Hx|]. apply Dn2. left. eauto.
Qed.
End run.
Lemma known_dec h d o : known_ops h d !! so_hash o = Some o \/ known_ops h d !! so_hash o <> Some o.
Proof. destruct (decide (known_ops h d !! so_hash o = Some o)); auto. Qed.
Lemma start_going t r h W : reachable t -> tm_clients t !! r = Some h -> going t r h W t h.
Proof. intros R E. constructor; try reflexivity; auto. intros d x o K. apply ar_known. rewrite (known_hash t r h d x o (good_of t R) E K). exact K. Qed.
Lemma ingests_kept t r h shuffle batches h' : reachable t -> tm_clients t !! r = Some h -> (forall l, shuffle l ≡ₚ l) ->
  (forall x, x ∈ h_pending h \/ (exists b, b ∈ batches /\ x ∈ b) -> addressed t h x) ->
  ingest_all (order r) doc_content do_doc do_ok (doc_receive (ho r) (ro r)) shuffle h batches = Some h' ->
  h_docs h' = h_docs h /\ h_keys h' = h_keys h /\ cs_pairs (h_cg h') = cs_pairs (h_cg h).
Proof.
  intros R E Sh AW Q. destruct batches as [|b bs]; [injection Q as <-; auto|]. set (W := fun x => x ∈ h_pending h \/ exists b', b' ∈ b :: bs /\ x ∈ b').
  destruct (going_all t r h W AW shuffle (b :: bs) Sh t h (start_going t r h W R E)) as (h1 & t1 & Q1 & V & _); [unfold W; tauto|left; discriminate|]. rewrite Q in Q1. apply (inj Some) in Q1 as <-. split; [apply V|split; apply V].
Qed.
End clients.
