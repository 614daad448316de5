(** Proofs about what a client offers. *)
From Coq Require Import Arith Lia.
From stdpp Require Import base list gmap relations sorting.
From Verif Require Import AccessModel GroupModel CgkaSpec GroupSpec GroupProofs GroupReplay GroupMembers GroupHistory GroupTransitive GroupPropsProofs.
From Verif Require Import PrekeyModel HiveModel HiveSpec HiveProofs HivePropsProofs SyncModel SyncSpec.

(** ** Every delegation of a group is below one of its delegation heads *)
Definition only_dheads (g : group) : group := Group (gr_id g) (gr_dheads g) ∅ (gr_members g) (gr_active g).
Lemma only_known g o : known (only_dheads g) o -> known g o.
Proof. intros (h & Hh & R). exists h. split; [|exact R]. destruct h; cbn in *; [exact Hh|rewrite lookup_empty in Hh; discriminate]. Qed.
Lemma delegations_below order ops g : some_order order -> history order ops g -> genuine (fun o => o ∈ ops) -> distinct_grants (fun o => o ∈ ops) ->
  forall d, MD d ∈ ops -> known (only_dheads g) (MD d).
Proof.
  intros O H. induction H as [id ps content g N ND E|d g E1 E2 E|e ops g d g' H IH Hp E|e ops g r g' H IH Hp E]; intros U D x Hx.
  - pose proof (history_consistent order O _ _ (h_generate order id ps content g N ND E) U D) as C. apply (cs_known _ _ _ C) in Hx as (h & Hh & R). exists h. split; [|exact R].
    destruct h as [h|r]; [exact Hh|]. exfalso. assert (K : known g (MR r)) by (exists (MR r); split; [exact Hh|apply rtc_refl]). apply (cs_known _ _ _ C), elem_of_list_fmap in K as (? & ? & _). discriminate.
  - pose proof (history_consistent order O _ _ (h_new order d g E1 E2 E) U D) as C. apply (cs_known _ _ _ C) in Hx as (h & Hh & R). exists h. split; [|exact R].
    destruct h as [h|r]; [exact Hh|]. exfalso. assert (K : known g (MR r)) by (exists (MR r); split; [exact Hh|apply rtc_refl]). apply (cs_known _ _ _ C), elem_of_list_singleton in K. discriminate.
  - pose proof (h_delegation order e ops g d g' H Hp E) as H'. pose proof (history_closed order _ _ H') as C.
    assert (U' : genuine (fun o => o ∈ ops)) by (intros a b A B; apply U; right; assumption). assert (D' : distinct_grants (fun o => o ∈ ops)) by (intros a b A B; apply D; right; assumption).
    specialize (IH U' D'). pose proof (history_consistent order O _ _ H U' D') as [F Ne Kn _ _]. destruct (accepted_delegation _ _ _ _ _ E) as (_ & _ & _ & R). destruct (rebuild_keeps _ _ _ R) as (_ & Q1 & _).
    destruct (add_known order O (only_dheads g) d (gr_members g) (gr_active g) (fun o => o ∈ MD d :: ops) C U D) as (_ & _ & K').
    { split; [apply (proj1 F)|]. intros s r X. cbn in X. rewrite lookup_empty in X. discriminate. } { exact Ne. } { intros o Ko. right. apply Kn, only_known, Ko. } { left. }
    assert (Y : known (Group (gr_id g) (insert_dhead order (gr_dheads g) d) (drop_rheads ∅ d) (gr_members g) (gr_active g)) (MD x)).
    { apply K'. apply elem_of_cons in Hx as [[= ->]|Hx]; [right; apply rtc_refl|left; apply IH, Hx]. }
    destruct Y as (h & Hh & Y). exists h. split; [|exact Y]. destruct h as [h|r]; cbn in Hh |- *.
    + rewrite Q1. exact Hh.
    + exfalso. unfold drop_rheads in Hh. apply map_filter_lookup_Some in Hh as [Hh _]. rewrite lookup_empty in Hh. discriminate.
  - apply elem_of_cons in Hx as [Q|Hx]; [discriminate|]. assert (U' : genuine (fun o => o ∈ ops)) by (intros a b A B; apply U; right; assumption). assert (D' : distinct_grants (fun o => o ∈ ops)) by (intros a b A B; apply D; right; assumption).
    destruct (IH U' D' x Hx) as (h & Hh & Y). destruct (accepted_revocation _ _ _ _ _ E) as (_ & _ & R). destruct (rebuild_keeps _ _ _ R) as (_ & Q1 & _).
    exists h. split; [|exact Y]. destruct h as [h|s]; cbn in Hh |- *; [rewrite Q1; exact Hh|exact Hh].
Qed.

Lemma concat_in {A} (x : A) (l : list (list A)) : x ∈ concat l <-> exists k, x ∈ k /\ k ∈ l.
Proof.
  rewrite elem_of_list_In, in_concat. split; intros (k & A1 & A2); exists k; rewrite ?elem_of_list_In in *; auto.
Qed.

(** ** The search *)
Section search.
Context (order : gset nat -> list nat) (O : some_order order) {cg cop : Type}.
Notation hive := (hive cg cop).
Implicit Types (h : hive) (m acc : gmap sig mop).
Lemma entries_in {A} (m : gmap nat A) x : x ∈ entries order m <-> exists i, m !! i = Some x.
Proof.
  unfold entries. rewrite elem_of_list_omap. split; [intros (i & _ & E); eauto|]. intros (i & E). exists i. split; [|exact E]. apply (order_dom order O). eauto.
Qed.
Definition filed_ops m : Prop := forall s o, m !! s = Some o -> op_sig o = s.
Definition inm m (o : mop) : Prop := m !! op_sig o = Some o.
Lemma bfs_spec h follow (P : mop -> Prop) : genuine P -> (forall o e, P o -> e ∈ edges order h follow o -> P e) ->
  forall fuel stack acc m, bfs order h follow fuel stack acc = Some m ->
  (forall o, o ∈ stack -> P o) -> (forall o, inm acc o -> P o) -> filed_ops acc ->
  (forall o e, inm acc o -> e ∈ edges order h follow o -> inm acc e \/ e ∈ stack) ->
  filed_ops m /\ (forall o, inm acc o -> inm m o) /\ (forall o, o ∈ stack -> inm m o) /\ (forall o, inm m o -> P o) /\
  (forall o e, inm m o -> e ∈ edges order h follow o -> inm m e) /\
  (forall Q : mop -> Prop, (forall o, inm acc o -> Q o) -> (forall o, o ∈ stack -> Q o) -> (forall o e, Q o -> e ∈ edges order h follow o -> Q e) -> forall o, inm m o -> Q o).
Proof.
  intros U Ed. induction fuel as [|f IH]; intros [|o stack] acc m E Hs Ha F Cl; cbn [bfs] in E; try discriminate.
  - injection E as <-. split; [exact F|]. split; [auto|]. split; [intros o Ho; inversion Ho|]. split; [exact Ha|]. split; [|auto]. intros o e Ho He. destruct (Cl o e Ho He) as [?|X]; [assumption|inversion X].
  - injection E as <-. split; [exact F|]. split; [auto|]. split; [intros o Ho; inversion Ho|]. split; [exact Ha|]. split; [|auto]. intros o e Ho He. destruct (Cl o e Ho He) as [?|X]; [assumption|inversion X].
  - destruct (decide (is_Some (acc !! op_sig o))) as [[o' Ho']|N].
    + assert (o' = o) as ->. { apply U; [apply Ha; unfold inm; rewrite (F _ _ Ho'); exact Ho'|apply Hs; left|apply (F _ _ Ho')]. }
      destruct (IH stack acc m E) as (A1 & A2 & A3 & A4 & A5 & A6); [intros x Hx; apply Hs; right; exact Hx|exact Ha|exact F| |].
      { intros x e Hx He. destruct (Cl x e Hx He) as [?|X]; [auto|]. apply elem_of_cons in X as [->|X]; [left; exact Ho'|auto]. }
      split; [exact A1|]. split; [exact A2|]. split; [intros x Hx; apply elem_of_cons in Hx as [->|Hx]; [apply A2; exact Ho'|auto]|]. split; [exact A4|]. split; [exact A5|].
      intros Q Q1 Q2 Q3. apply A6; [exact Q1|intros x Hx; apply Q2; right; exact Hx|exact Q3].
    + assert (N' : acc !! op_sig o = None) by (destruct (acc !! op_sig o) eqn:X; [exfalso; apply N; eauto|reflexivity]).
      assert (New : forall x, inm (<[op_sig o := o]> acc) x <-> x = o \/ inm acc x).
      { intros x. unfold inm. destruct (decide (op_sig o = op_sig x)) as [Q|Q].
        - rewrite <- Q, lookup_insert. split; [intros [= ->]; auto|]. intros [->|X]; [reflexivity|]. congruence.
        - rewrite lookup_insert_ne by exact Q. split; [auto|]. intros [->|X]; [contradiction|exact X]. }
      destruct (IH (reverse (edges order h follow o) ++ stack) (<[op_sig o := o]> acc) m E) as (A1 & A2 & A3 & A4 & A5 & A6).
      * intros x Hx. apply elem_of_app in Hx as [Hx|Hx]; [rewrite elem_of_reverse in Hx; eapply Ed; [apply Hs; left|exact Hx]|apply Hs; right; exact Hx].
      * intros x Hx. apply New in Hx as [->|Hx]; [apply Hs; left|auto].
      * intros s x Hx. apply lookup_insert_Some in Hx as [[<- <-]|[_ Hx]]; [reflexivity|apply F, Hx].
      * intros x e Hx He. rewrite New, elem_of_app, elem_of_reverse. apply New in Hx as [->|Hx]; [auto|]. destruct (Cl x e Hx He) as [?|X]; [auto|]. apply elem_of_cons in X as [->|X]; auto.
      * split; [exact A1|]. split; [intros x Hx; apply A2, New; auto|]. split.
        { intros x Hx. apply elem_of_cons in Hx as [->|Hx]; [apply A2, New; auto|]. apply A3, elem_of_app. auto. }
        split; [exact A4|]. split; [exact A5|]. intros Q Q1 Q2 Q3. apply A6; [|intros x Hx; apply elem_of_app in Hx as [Hx|Hx]; [rewrite elem_of_reverse in Hx; eapply Q3; [apply Q2; left|exact Hx]|apply Q2; right; exact Hx]|exact Q3].
        intros x Hx. apply New in Hx as [->|Hx]; [apply Q2; left|auto].
Qed.
(** The search ends. *)
Definition weight h acc (l : list mop) : nat := foldr Nat.add 0 (map (fun o => if decide (is_Some (acc !! op_sig o)) then 0 else length (edges order h true o)) l).
Lemma weight_mono h acc o l : weight h (<[op_sig o := o]> acc) l <= weight h acc l.
Proof.
  induction l as [|x l IH]; cbn; [lia|]. destruct (decide (is_Some (acc !! op_sig x))) as [A|A]; destruct (decide (is_Some (<[op_sig o := o]> acc !! op_sig x))) as [B|B]; unfold weight in IH; try lia.
  exfalso. apply B. destruct (decide (op_sig o = op_sig x)) as [->|Q]; [rewrite lookup_insert; eauto|rewrite lookup_insert_ne; auto].
Qed.
Lemma weight_drop h acc o l : acc !! op_sig o = None -> o ∈ l -> weight h (<[op_sig o := o]> acc) l + length (edges order h true o) <= weight h acc l.
Proof.
  intros N H. induction l as [|x l IH]; [inversion H|]. apply elem_of_cons in H as [<-|H]; cbn.
  - rewrite lookup_insert. rewrite N. destruct (decide (is_Some (Some o))) as [_|Q]; [|exfalso; apply Q; eauto]. destruct (decide (is_Some None)) as [[? X]|_]; [discriminate X|].
    pose proof (weight_mono h acc o l). unfold weight in *. lia.
  - specialize (IH H). unfold weight in IH. destruct (decide (is_Some (acc !! op_sig x))) as [A|A]; destruct (decide (is_Some (<[op_sig o := o]> acc !! op_sig x))) as [B|B]; try lia.
    exfalso. apply B. destruct (decide (op_sig o = op_sig x)) as [->|Q]; [rewrite lookup_insert; eauto|rewrite lookup_insert_ne; auto].
Qed.
Lemma edges_more h follow o : length (edges order h follow o) <= length (edges order h true o).
Proof. unfold edges. rewrite !app_length. destruct follow; cbn; lia. Qed.
Lemma edges_sub h follow o e : e ∈ edges order h follow o -> e ∈ edges order h true o.
Proof. unfold edges. rewrite !elem_of_app. destruct follow; [auto|]. intros [?|X]; [auto|inversion X]. Qed.
Lemma bfs_total h follow l : (forall o e, o ∈ l -> e ∈ edges order h true o -> e ∈ l) -> forall fuel stack acc, (forall o, o ∈ stack -> o ∈ l) -> length stack + weight h acc l <= fuel ->
  is_Some (bfs order h follow fuel stack acc).
Proof.
  intros Cl. induction fuel as [|f IH]; intros [|o stack] acc Hs L; cbn [bfs]; eauto; cbn [length] in L; [lia|].
  destruct (decide (is_Some (acc !! op_sig o))) as [A|A].
  - apply IH; [intros x Hx; apply Hs; right; exact Hx|]. lia.
  - apply IH.
    + intros x Hx. apply elem_of_app in Hx as [Hx|Hx]; [|apply Hs; right; exact Hx]. rewrite elem_of_reverse in Hx; apply edges_sub in Hx. eapply Cl; [apply Hs; left|exact Hx].
    + rewrite app_length, reverse_length. assert (N : acc !! op_sig o = None) by (destruct (acc !! op_sig o) eqn:X; [exfalso; apply A; eauto|reflexivity]).
      pose proof (weight_drop h acc o l N (Hs o (elem_of_list_here _ _))). pose proof (edges_more h follow o). lia.
Qed.
Lemma weight_bound h acc l : weight h acc l <= foldr Nat.add 0 (map (fun o => length (edges order h true o)) l).
Proof. induction l as [|x l IH]; cbn; [lia|]. unfold weight in IH. destruct (decide _); lia. Qed.
End search.

(** ** What a client offers *)
Section client.
Context (order : gset nat -> list nat) (O : some_order order) (doc_content : nat -> ident -> bool).
Context {cg cop : Type} (doc_ops : cg -> ident -> list cop) (W : sevent cop -> Prop) (K : ident -> Prop) (T : tame W K).
Context (h : hive cg cop) (I : inv order doc_content W K h).
Notation ops := (has_op h).

Lemma ops_genuine : genuine ops.
Proof. intros a b A B. apply (from_genuine W (tm_digests _ _ T)); eapply sup_from, (iv_sup _ _ _ _ _ I); assumption. Qed.
Lemma ops_closed o p : ops o -> p ∈ parents o -> ops p.
Proof.
  intros Ho Hp. destruct (iv_subject _ _ _ _ _ I o Ho) as (g & G). destruct (group_ops order O doc_content W K T h _ g I G) as (l & H & _ & _ & Hl & _).
  assert (o ∈ l) as Hin by (apply Hl; auto). pose proof (history_closed order _ _ H _ _ Hin Hp) as X. apply Hl in X. apply X.
Qed.
Lemma head_op i g o : has_group h i g -> is_head g o -> ops o.
Proof.
  intros G Ho. destruct (group_ops order O doc_content W K T h i g I G) as (l & _ & C & _ & Hl & _). apply Hl, (cs_known _ _ _ C). exists o. split; [exact Ho|apply rtc_refl].
Qed.
Lemma group_filed i g : has_group h i g -> filed g.
Proof. intros G. destruct (group_ops order O doc_content W K T h i g I G) as (l & _ & C & _). apply (cs_filed _ _ _ C). Qed.
Lemma group_id i g : has_group h i g -> gr_id g = i.
Proof. intros G. destruct (group_ops order O doc_content W K T h i g I G) as (l & _ & _ & E & _). exact E. Qed.
Lemma env_group i mems : h_env h !! i = Some mems <-> exists g, has_group h i g /\ mems = gr_members g.
Proof.
  unfold h_env. rewrite lookup_fmap. split.
  - destruct ((h_docs h ∪ h_groups h) !! i) as [g|] eqn:X; [|discriminate]. intros [= <-]. exists g. split; [|reflexivity]. apply lookup_union_Some_raw in X as [X|[_ X]]; [right|left]; exact X.
  - intros (g & [G|G] & ->).
    + assert (N : h_docs h !! i = None). { destruct (h_docs h !! i) eqn:X; [|reflexivity]. exfalso. eapply (iv_once _ _ _ _ _ I i); eauto. }
      rewrite lookup_union_r by exact N. rewrite G. reflexivity.
    + erewrite lookup_union_Some_l by exact G. reflexivity.
Qed.
Lemma one_group i g g' : has_group h i g -> has_group h i g' -> g = g'.
Proof.
  intros [A|A] [B|B]; try congruence; exfalso; eapply (iv_once _ _ _ _ _ I i); eauto.
Qed.
Lemma env_sane : sane (h_env h).
Proof.
  assert (X : forall i mems j l, h_env h !! i = Some mems -> mems !! j = Some l -> l <> [] /\ forall d, d ∈ l -> d_delegate d = j /\ ops (MD d)).
  { intros i mems j l E L. apply env_group in E as (g & G & ->). destruct (group_ops order O doc_content W K T h i g I G) as (os & H & C & _ & Hl & _).
    assert (S : sound os). { apply (from_sound W K T os i). intros o Ho. apply Hl in Ho as [Ho Eo]. split; [eapply sup_from, (iv_sup _ _ _ _ _ I); eauto|exact Eo]. }
    destruct (members_wf order O os g H (proj1 S) (proj2 S) j l L) as [A B]. split; [exact A|]. intros d Hd. split; [apply B, Hd|]. apply Hl. eapply (member_in order O os g); eauto. }
  split.
  - intros i mems j l E L. destruct (X i mems j l E L) as [A B]. split; [exact A|]. intros d Hd. apply B, Hd.
  - intros i mems j l d i' mems' j' l' d' E L Hd E' L' Hd' S. destruct (X i mems j l E L) as [_ B]. destruct (X i' mems' j' l' E' L') as [_ B'].
    assert (Q : MD d = MD d') by (apply ops_genuine; [apply B, Hd|apply B', Hd'|exact S]). congruence.
Qed.
Lemma caps_spec i g : has_group h i g -> exists caps, caps_of order h g = Some caps /\ forall a, a <> i -> is_Some (caps !! a) <-> belongs (h_env h) i a.
Proof.
  intros G. unfold caps_of. rewrite (group_id i g G). apply transitive_members_spec; [exact O|exact env_sane|]. apply env_group. eauto.
Qed.
Lemma reaches_spec i g a : has_group h i g -> a <> i -> reaches order h a g = true <-> belongs (h_env h) i a.
Proof.
  intros G N. destruct (caps_spec i g G) as (caps & E & H). unfold reaches. rewrite E, bool_decide_eq_true. apply H, N.
Qed.
Lemma docs_reachable_spec a g : g ∈ docs_reachable order h a <-> exists i, h_docs h !! i = Some g /\ reaches order h a g = true.
Proof. unfold docs_reachable. rewrite elem_of_list_filter, (entries_in order O). naive_solver. Qed.
Lemma membered_spec a g : g ∈ membered_reachable order h a <-> exists i, has_group h i g /\ reaches order h a g = true.
Proof.
  unfold membered_reachable. rewrite elem_of_app, elem_of_list_filter, (entries_in order O), docs_reachable_spec. unfold has_group. naive_solver.
Qed.
Lemma heads_spec i g o : has_group h i g -> o ∈ membership_heads order g <-> is_head g o.
Proof. intros G. apply (heads_of_elem order O g o (group_filed i g G)). Qed.
Lemma revs_for_spec a r : r ∈ revs_for order h a <-> ops (MR r) /\ d_delegate (r_revoke r) = a.
Proof.
  unfold revs_for. rewrite elem_of_list_filter, (entries_in order O). split.
  - intros (E & s & Hs). split; [|exact E]. cbn. rewrite (iv_revs _ _ _ _ _ I _ _ Hs). exact Hs.
  - intros (Ho & E). split; [exact E|]. exists (r_sig r). exact Ho.
Qed.
Lemma stored_spec o : o ∈ stored order h <-> ops o.
Proof.
  unfold stored. rewrite elem_of_app, !elem_of_list_fmap. split.
  - intros [(d & -> & Hd)|(r & -> & Hd)]; apply (entries_in order O) in Hd as (s & Hs); cbn; [rewrite (iv_dlgs _ _ _ _ _ I _ _ Hs)|rewrite (iv_revs _ _ _ _ _ I _ _ Hs)]; exact Hs.
  - destruct o as [d|r]; cbn; intros Ho; [left; exists d|right; exists r]; (split; [reflexivity|]); apply (entries_in order O); eauto.
Qed.
Lemma group_edges_spec o e : e ∈ group_edges order h o <-> exists d g x, o = MD d /\ h_groups h !! d_delegate d = Some g /\ e = MD x /\ is_head g e.
Proof.
  destruct o as [d|r]; cbn [group_edges]; [|split; [intros X; inversion X|intros (? & ? & ? & ? & _); discriminate]].
  destruct (Nat.eqb_spec (d_delegate d) (ks_active (h_keys h))) as [Q|Q].
  { split; [intros X; inversion X|]. intros (d' & g & x & [= <-] & G & _). exfalso. pose proof (group_owner order O doc_content W K T h _ g I (or_introl G)) as Ow.
    destruct (tm_people _ _ T _ Ow) as [N _]. apply N. rewrite Q. apply (iv_active _ _ _ _ _ I). }
  destruct (h_docs h !! d_delegate d) as [gd|] eqn:Gd.
  { split; [intros X; inversion X|]. intros (d' & g & x & [= <-] & G & _). exfalso. eapply (iv_once _ _ _ _ _ I); eauto. }
  destruct (h_groups h !! d_delegate d) as [g|] eqn:G.
  - rewrite elem_of_list_fmap. split.
    + intros (x & -> & Hx). apply (entries_in order O) in Hx as (s & Hs). exists d, g, x. split; [reflexivity|]. split; [exact G|]. split; [reflexivity|]. cbn. rewrite (proj1 (group_filed _ g (or_introl G)) _ _ Hs). exact Hs.
    + intros (d' & g' & x & [= <-] & G' & -> & Hx). assert (g' = g) as -> by congruence. exists x. split; [reflexivity|]. apply (entries_in order O). cbn in Hx. eauto.
  - split; [intros X; inversion X|]. intros (d' & g & x & [= <-] & G' & _). congruence.
Qed.
Lemma edges_ops follow o e : ops o -> e ∈ edges order h follow o -> ops e.
Proof.
  intros Ho He. unfold edges in He. apply elem_of_app in He as [He|He]; [eapply ops_closed; eauto|]. destruct follow; [|inversion He].
  apply group_edges_spec in He as (d & g & x & -> & G & -> & Hx). eapply head_op; [left; exact G|exact Hx].
Qed.
(** What a search finds. *)
Inductive found (follow : bool) (S : mop -> Prop) : mop -> Prop :=
| fd_start o : S o -> found follow S o
| fd_edge o e : found follow S o -> e ∈ edges order h follow o -> found follow S e.
Lemma found_mono follow (S S' : mop -> Prop) o : (forall x, S x -> S' x) -> found follow S o -> found follow S' o.
Proof. intros H. induction 1 as [o Ho|o e _ IH He]; [apply fd_start, H, Ho|eapply fd_edge; eauto]. Qed.
Lemma search_spec follow stack acc : (forall o, o ∈ stack -> ops o) -> (forall o, inm acc o -> ops o) -> filed_ops acc ->
  (forall o e, inm acc o -> e ∈ edges order h follow o -> inm acc e \/ e ∈ stack) ->
  exists m, search order h follow stack acc = Some m /\ filed_ops m /\ (forall o, inm m o <-> inm acc o \/ found follow (fun x => x ∈ stack) o) /\
    (forall o e, inm m o -> e ∈ edges order h follow o -> inm m e).
Proof.
  intros Hs Ha F Cl. unfold search. destruct (bfs_total order h follow (stored order h)) with (fuel := bfs_fuel order h stack) (stack := stack) (acc := acc) as [m E].
  { intros o e Ho He. apply stored_spec. apply stored_spec in Ho. eapply edges_ops; eauto. } { intros o Ho. apply stored_spec, Hs, Ho. }
  { unfold bfs_fuel. pose proof (weight_bound order h acc (stored order h)). lia. }
  exists m. split; [exact E|]. destruct (bfs_spec order h follow ops ops_genuine (fun o e => edges_ops follow o e) _ _ _ _ E Hs Ha F Cl) as (A1 & A2 & A3 & _ & A5 & A6).
  split; [exact A1|]. split; [|exact A5]. intros o. split.
  - intros Hm. revert o Hm. apply A6; [auto|intros o Ho; right; apply fd_start, Ho|]. intros o e [Ho|Ho] He; [|right; eapply fd_edge; eauto].
    destruct (Cl o e Ho He) as [?|?]; [auto|]. right. apply fd_start. assumption.
  - intros [Ho|Ho]; [apply A2, Ho|]. induction Ho as [o Ho|o e _ IH He]; [apply A3, Ho|eapply A5; eauto].
Qed.
(** keyhive.rs 919-996. *)
Lemma membership_ops_spec a : (forall g, ~ has_group h a g) ->
  exists m, membership_ops order h a = Some m /\ filed_ops m /\ forall o, inm m o <-> offered h a o.
Proof.
  intros Na. unfold membership_ops. set (st := reverse _). assert (Hst : forall o, o ∈ st <-> (exists i g, has_group h i g /\ belongs (h_env h) i a /\ is_head g o) \/ (exists r, o = MR r /\ ops o /\ d_delegate (r_revoke r) = a)).
  { intros o. unfold st. rewrite elem_of_reverse, elem_of_app, elem_of_list_fmap. split.
    - intros [H|(r & -> & Hr)].
      + left. apply concat_in in H as (l & Ho & Hl). apply elem_of_list_fmap in Hl as (g & -> & Hg). apply membered_spec in Hg as (i & G & R).
        exists i, g. split; [exact G|]. split; [apply (reaches_spec i g a G); [intros ->; exact (Na _ G)|exact R]|]. apply (heads_spec i g o G), Ho.
      + right. apply revs_for_spec in Hr. exists r. tauto.
    - intros [(i & g & G & B & Ho)|(r & -> & Hr)].
      + left. apply concat_in. exists (membership_heads order g). split; [apply (heads_spec i g o G), Ho|]. apply elem_of_list_fmap. exists g. split; [reflexivity|].
        apply membered_spec. exists i. split; [exact G|]. apply (reaches_spec i g a G); [intros ->; exact (Na _ G)|exact B].
      + right. exists r. split; [reflexivity|]. apply revs_for_spec. exact Hr. }
  destruct (search_spec true st ∅) as (m & E & F & Hm & _).
  { intros o Ho. apply Hst in Ho as [(i & g & G & _ & Ho)|(r & _ & Ho & _)]; [eapply head_op; eauto|exact Ho]. }
  { intros o Ho. unfold inm in Ho. rewrite lookup_empty in Ho. discriminate. } { intros s o Ho. rewrite lookup_empty in Ho. discriminate. } { intros o e Ho. unfold inm in Ho. rewrite lookup_empty in Ho. discriminate. }
  exists m. split; [exact E|]. split; [exact F|]. intros o. rewrite Hm. split.
  - intros [Ho|Ho]; [unfold inm in Ho; rewrite lookup_empty in Ho; discriminate|]. induction Ho as [o Ho|o e _ IH He].
    + apply Hst in Ho as [(i & g & G & B & Ho)|(r & -> & Ho & Er)]; [eapply off_head; eauto|apply off_revoked; auto].
    + unfold edges in He. apply elem_of_app in He as [He|He]; [eapply off_parent; eauto|]. apply group_edges_spec in He as (d & g & x & -> & G & -> & Hx). eapply off_team; eauto.
  - intros Ho. right. induction Ho as [i g o G B Ho|r Ho Er|o p _ IH Hp|d g x _ IH G Hx].
    + apply fd_start, Hst. left. eauto.
    + apply fd_start, Hst. right. eauto.
    + eapply fd_edge; [exact IH|]. unfold edges. apply elem_of_app. left. exact Hp.
    + eapply fd_edge; [exact IH|]. unfold edges. apply elem_of_app. right. apply group_edges_spec. exists d, g, x. auto.
Qed.
Lemma offered_op a o : offered h a o -> ops o.
Proof.
  induction 1 as [i g o G B Ho|r Ho Er|o p _ IH Hp|d g x _ IH G Hx]; [eapply head_op; eauto|exact Ho|eapply ops_closed; eauto|eapply head_op; [left; exact G|exact Hx]].
Qed.
(** Of a group the agent belongs to, everything is offered; of a group that an offered delegation is
    for, all delegations. *)
Lemma offered_all a i g o : has_group h i g -> belongs (h_env h) i a -> ops o -> op_subject o = i -> offered h a o.
Proof.
  intros G B Ho Eo. destruct (group_ops order O doc_content W K T h i g I G) as (l & _ & C & _ & Hl & _). assert (Hin : o ∈ l) by (apply Hl; auto). apply (cs_known _ _ _ C) in Hin as (x & Hx & R).
  assert (X : offered h a x) by (eapply off_head; eauto). clear Hx. induction R as [|x y z S R IH]; [exact X|]. apply IH; auto. eapply off_parent; eauto.
Qed.
Lemma offered_team a d g x : offered h a (MD d) -> h_groups h !! d_delegate d = Some g -> ops (MD x) -> d_subject x = d_delegate d -> offered h a (MD x).
Proof.
  intros Hd G Ho Ex. destruct (group_ops order O doc_content W K T h _ g I (or_introl G)) as (l & H & C & _ & Hl & _). assert (Hin : MD x ∈ l) by (apply Hl; auto).
  assert (S : sound l). { apply (from_sound W K T l (d_delegate d)). intros o Hx. apply Hl in Hx as [Hx Eo]. split; [eapply sup_from, (iv_sup _ _ _ _ _ I); eauto|exact Eo]. }
  destruct (delegations_below order l g O H (proj1 S) (proj2 S) x Hin) as (y & Hy & R).
  assert (Y : offered h a y). { destruct y as [y|r]; cbn in Hy; [|rewrite lookup_empty in Hy; discriminate]. eapply off_team; eauto. }
  clear Hy. remember (MD x) as o eqn:Eo. clear Eo Hin. revert Y. clear -R. induction R as [|u v w Suv R IH]; intros Y; [exact Y|]. apply IH. eapply off_parent; eauto.
Qed.
End client.
