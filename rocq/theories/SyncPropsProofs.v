(** What is offered can be taken; the queries for all agents at once. *)
From Coq Require Import Arith Lia.
From stdpp Require Import base list gmap relations sorting.
From Verif Require Import AccessModel GroupModel CgkaSpec GroupSpec GroupProofs GroupReplay GroupMembers GroupHistory GroupTransitive GroupPropsProofs.
From Verif Require Import PrekeyModel HiveModel HiveSpec HiveProofs HivePropsProofs SyncModel SyncSpec SyncProofs.

(** ** Prekeys and group-key operations *)
Section keys.
Context (order : gset nat -> list nat) (O : some_order order) (doc_content : nat -> ident -> bool).
Context {cg cop : Type} (doc_ops : cg -> ident -> list cop) (W : sevent cop -> Prop) (K : ident -> Prop) (T : tame W K).
Context (h : hive cg cop) (I : inv order doc_content W K h).
Lemma all_groups_in g : g ∈ entries order (h_groups h) ++ entries order (h_docs h) <-> exists i, has_group h i g.
Proof. rewrite elem_of_app, !(entries_in order O). unfold has_group. naive_solver. Qed.
(** Whose prekeys go to [a], in terms of [caps_of]. *)
Definition with_agent (a i : ident) (g : group) : Prop := exists caps, caps_of order h g = Some caps /\ is_Some (caps !! a) /\ (i = gr_id g \/ is_Some (caps !! i)).
Lemma prekey_agents_raw a i : i ∈ prekey_agents order h a <-> i = ks_active (h_keys h) \/ i = a \/ exists j g, has_group h j g /\ with_agent a i g.
Proof.
  unfold prekey_agents. assert (X : forall l s, i ∈ foldl (fun s g => match caps_of order h g with
                    | Some caps => if bool_decide (is_Some (caps !! a)) then {[gr_id g]} ∪ dom caps ∪ s else s
                    | None => s end) s l <-> i ∈ s \/ exists g, g ∈ l /\ with_agent a i g).
  { induction l as [|g l IH]; intros s; cbn [foldl].
    - split; [auto|]. intros [?|(g & Hg & _)]; [assumption|inversion Hg].
    - rewrite IH. assert (Y : i ∈ match caps_of order h g with Some caps => if bool_decide (is_Some (caps !! a)) then {[gr_id g]} ∪ dom caps ∪ s else s | None => s end <-> i ∈ s \/ with_agent a i g).
      { unfold with_agent. destruct (caps_of order h g) as [caps|]; [|naive_solver]. destruct (bool_decide (is_Some (caps !! a))) eqn:B.
        - apply bool_decide_eq_true in B. rewrite !elem_of_union, elem_of_singleton, elem_of_dom. naive_solver.
        - apply bool_decide_eq_false in B. naive_solver. }
      rewrite Y. split; [intros [[?|?]|(x & ? & ?)]|intros [?|(x & Hx & ?)]]; [auto| | |auto|]; [right; exists g; split; [left|assumption]|right; exists x; split; [right; assumption|assumption]|].
      apply elem_of_cons in Hx as [->|Hx]; [auto|]. right. eauto. }
  rewrite X, elem_of_union, !elem_of_singleton. setoid_rewrite all_groups_in. naive_solver.
Qed.
Lemma prekey_agents_lemma a i : (forall g, ~ has_group h a g) -> i ∈ prekey_agents order h a <-> offered_keys h a i.
Proof.
  intros Na. rewrite prekey_agents_raw. unfold offered_keys. assert (X : forall j g, has_group h j g -> with_agent a i g <-> belongs (h_env h) j a /\ (i = j \/ belongs (h_env h) j i)).
  { intros j g G. destruct (caps_spec order O doc_content W K T h I j g G) as (caps & E & C). pose proof (group_id order O doc_content W K T h I j g G) as Ej. assert (Naj : a <> j) by (intros ->; exact (Na _ G)).
    unfold with_agent. rewrite Ej. split.
    - intros (c & Ec & A & B). rewrite E in Ec. injection Ec as <-. split; [apply C; auto|]. destruct (decide (i = j)) as [->|N]; [auto|]. right. destruct B as [?|B]; [contradiction|]. apply C; auto.
    - intros (A & B). exists caps. split; [exact E|]. split; [apply C; auto|]. destruct (decide (i = j)) as [->|N]; [auto|]. right. destruct B as [?|B]; [contradiction|]. apply C; auto. }
  split; (intros [?|[?|(j & g & G & H)]]; [auto|auto|]); right; right; exists j, g; (split; [exact G|]); apply (X j g G); exact H.
Qed.
Lemma prekey_ops_in a o : o ∈ prekey_ops order h a <-> exists i, i ∈ prekey_agents order h a /\ o ∈ key_ops (h_keys h) i.
Proof.
  unfold prekey_ops. rewrite elem_of_union_list. split.
  - intros (X & HX & Ho). apply elem_of_list_fmap in HX as (i & -> & Hi). rewrite (O _), elem_of_elements in Hi. eauto.
  - intros (i & Hi & Ho). exists (key_ops (h_keys h) i). split; [|exact Ho]. apply elem_of_list_fmap. exists i. split; [reflexivity|]. rewrite (O _), elem_of_elements. exact Hi.
Qed.
(** The index of the batch query agrees with the single query. *)
Lemma prekey_index_lemma a s : prekey_index order h !! a = Some s -> s = prekey_agents order h a.
Proof.
  intros E. apply set_eq. intros i. rewrite prekey_agents_raw. unfold prekey_index in E.
  set (act := ks_active (h_keys h)) in *.
  set (ix1 := foldl _ _ (order (dom (ks_indies (h_keys h))))) in E.
  assert (X1 : forall j t, ix1 !! j = Some t -> t = {[act; j]}).
  { unfold ix1. assert (Y : forall l (ix : gmap ident (gset ident)), (forall j t, ix !! j = Some t -> t = {[act; j]}) -> forall j t, foldl (fun ix i => <[i := {[act; i]} ∪ default ∅ (ix !! i)]> ix) ix l !! j = Some t -> t = {[act; j]}).
    { induction l as [|x l IH]; intros ix Hix j t; cbn [foldl]; [apply Hix|]. apply IH. intros j' t' Q. apply lookup_insert_Some in Q as [[<- <-]|[_ Q]]; [|apply Hix, Q].
      destruct (ix !! x) as [u|] eqn:U; cbn; [rewrite (Hix _ _ U); set_solver|set_solver]. }
    apply Y. intros j t Q. apply lookup_singleton_Some in Q as [<- <-]. set_solver. }
  assert (X2 : forall l (ix : gmap ident (gset ident)) a s, foldl (fun ix g => match caps_of order h g with
                     | Some caps => foldl (fun ix i => <[i := {[act; i; gr_id g]} ∪ dom caps ∪ default ∅ (ix !! i)]> ix) ix (order (dom caps))
                     | None => ix end) ix l !! a = Some s ->
     (forall j t, ix !! j = Some t -> act ∈ t /\ j ∈ t) ->
     (act ∈ s /\ a ∈ s) /\ (i ∈ s <-> i ∈ default ∅ (ix !! a) \/ i = act \/ i = a \/ exists g, g ∈ l /\ with_agent a i g)).
  { clear E X1. induction l as [|g l IH]; intros ix b u E Hix; cbn [foldl] in E.
    - destruct (Hix _ _ E) as [A B]. split; [auto|]. rewrite E. cbn. split; [auto|]. intros [?|[->|[->|(g & Hg & _)]]]; [assumption|exact A|exact B|inversion Hg].
    - assert (Z : forall caps L (ix : gmap ident (gset ident)), NoDup L -> forall j, foldl (fun ix i => <[i := {[act; i; gr_id g]} ∪ dom caps ∪ default ∅ (ix !! i)]> ix) ix L !! j =
          if decide (j ∈ L) then Some ({[act; j; gr_id g]} ∪ dom (caps : gmap ident access) ∪ default ∅ (ix !! j)) else ix !! j).
      { intros caps. induction L as [|x L IHL]; intros ix0 ND j; cbn [foldl]; [destruct (decide (j ∈ [])) as [Q|_]; [inversion Q|reflexivity]|]. apply NoDup_cons in ND as [N1 N2]. rewrite (IHL _ N2 j).
        destruct (decide (j = x)) as [->|N].
        - destruct (decide (x ∈ L)) as [Q|_]; [contradiction|]. destruct (decide (x ∈ x :: L)) as [_|Q]; [|exfalso; apply Q; left]. apply lookup_insert.
        - rewrite !lookup_insert_ne by congruence. destruct (decide (j ∈ L)) as [Q|Q]; destruct (decide (j ∈ x :: L)) as [Q'|Q']; auto; exfalso; [apply Q'; right; exact Q|]. apply elem_of_cons in Q' as [?|?]; contradiction. }
      destruct (caps_of order h g) as [caps|] eqn:Ec.
      + assert (ND : NoDup (order (dom caps))) by (rewrite (O _); apply NoDup_elements). apply IH in E as [E1 E2].
        * split; [exact E1|]. rewrite E2, (Z caps _ ix ND b). destruct (decide (b ∈ order (dom caps))) as [Q|Q]; rewrite (O _), elem_of_elements, elem_of_dom in Q.
          -- cbn [from_option id]. rewrite !elem_of_union, !elem_of_singleton, elem_of_dom. split.
             ++ intros [[[[[?|?]|?]|?]|?]|[?|[?|(x & Hx & ?)]]]; auto; right; right; right; [exists g; split; [left|exists caps; auto]|exists g; split; [left|exists caps; auto]|exists x; split; [right; exact Hx|assumption]].
             ++ intros [?|[?|[?|(x & Hx & Ha)]]]; auto. apply elem_of_cons in Hx as [->|Hx]; [|right; right; right; eauto]. left. left. destruct Ha as (c & Hc & _ & [?|?]); rewrite Ec in Hc; injection Hc as <-; auto.
          -- split; [intros [?|[?|[?|(x & Hx & ?)]]]; auto; right; right; right; exists x; split; [right; exact Hx|assumption]|].
             intros [?|[?|[?|(x & Hx & Ha)]]]; auto. apply elem_of_cons in Hx as [->|Hx]; [|right; right; right; eauto]. exfalso. destruct Ha as (c & Hc & A & _). rewrite Ec in Hc. injection Hc as <-. contradiction.
        * intros j t Ht. rewrite (Z caps _ ix ND j) in Ht. destruct (decide (j ∈ order (dom caps))); [|apply Hix, Ht]. injection Ht as <-. set_solver.
      + apply IH in E as [E1 E2]; [|exact Hix]. split; [exact E1|]. rewrite E2. split.
        * intros [?|[?|[?|(x & Hx & ?)]]]; auto. right; right; right; exists x; split; [right; exact Hx|assumption].
        * intros [?|[?|[?|(x & Hx & Ha)]]]; auto. apply elem_of_cons in Hx as [->|Hx]; [|right; right; right; eauto]. exfalso. destruct Ha as (c & Hc & _). congruence. }
  destruct (X2 _ _ _ _ E) as [_ Y]. { intros j t Q. rewrite (X1 _ _ Q). set_solver. }
  rewrite Y. setoid_rewrite all_groups_in. split.
  - intros [Q|[?|[?|(g & (j & G) & ?)]]]; auto; [|right; right; eauto]. destruct (ix1 !! a) as [t|] eqn:Et; cbn in Q; [|set_solver]. rewrite (X1 _ _ Et) in Q. set_solver.
  - intros [?|[?|(j & g & G & ?)]]; auto. right; right; right. eauto.
Qed.
(** Group-key operations. *)
Lemma cgka_ops_lemma a c : (forall g, ~ has_group h a g) -> c ∈ cgka_ops order doc_ops h a <-> exists i, offered_docs h a i /\ c ∈ doc_ops (h_cg h) i.
Proof.
  intros Na. unfold cgka_ops. rewrite concat_in. split.
  - intros (k & Hc & Hk). apply elem_of_list_fmap in Hk as (g & -> & Hg). apply (docs_reachable_spec order O) in Hg as (i & G & R).
    rewrite (group_id order O doc_content W K T h I i g (or_intror G)) in Hc. exists i. split; [|exact Hc]. split; [eauto|]. apply (reaches_spec order O doc_content W K T h I i g a (or_intror G)); [|exact R]. intros ->. exact (Na _ (or_intror G)).
  - intros (i & [[g G] B] & Hc). exists (doc_ops (h_cg h) (gr_id g)). rewrite (group_id order O doc_content W K T h I i g (or_intror G)). split; [exact Hc|]. apply elem_of_list_fmap. exists g. rewrite (group_id order O doc_content W K T h I i g (or_intror G)). split; [reflexivity|].
    apply (docs_reachable_spec order O). exists i. split; [exact G|]. apply (reaches_spec order O doc_content W K T h I i g a (or_intror G)); [|exact B]. intros ->. exact (Na _ (or_intror G)).
Qed.
Lemma cgka_index_raw a i : i ∈ default ∅ (cgka_index order doc_ops h !! a) <-> exists g caps, g ∈ entries order (h_docs h) /\ gr_id g = i /\ doc_ops (h_cg h) i <> [] /\ caps_of order h g = Some caps /\ is_Some (caps !! a).
Proof.
  unfold cgka_index. assert (X : forall l (ix : gmap ident (gset ident)), i ∈ default ∅ (foldl (fun ix g => match doc_ops (h_cg h) (gr_id g), caps_of order h g with
                     | [], _ | _, None => ix
                     | _, Some caps => foldl (fun ix i => <[i := {[gr_id g]} ∪ default ∅ (ix !! i)]> ix) ix (order (dom caps)) end) ix l !! a) <->
     i ∈ default ∅ (ix !! a) \/ exists g caps, g ∈ l /\ gr_id g = i /\ doc_ops (h_cg h) i <> [] /\ caps_of order h g = Some caps /\ is_Some (caps !! a)).
  { induction l as [|g l IH]; intros ix; cbn [foldl].
    - split; [auto|]. intros [?|(g & c & Hg & _)]; [assumption|inversion Hg].
    - rewrite IH. clear IH.
      assert (Z : forall L (ix : gmap ident (gset ident)), i ∈ default ∅ (foldl (fun ix i => <[i := {[gr_id g]} ∪ default ∅ (ix !! i)]> ix) ix L !! a) <-> i ∈ default ∅ (ix !! a) \/ (a ∈ L /\ i = gr_id g)).
      { induction L as [|x L IHL]; intros ix0; cbn [foldl]; [split; [auto|intros [?|[Q _]]; [assumption|inversion Q]]|]. rewrite IHL. rewrite elem_of_cons. destruct (decide (x = a)) as [->|N].
        - rewrite lookup_insert. cbn [from_option id]. rewrite elem_of_union, elem_of_singleton. tauto.
        - rewrite lookup_insert_ne by exact N. split; [tauto|]. intros [?|[[?|?] ?]]; [auto|congruence|auto]. }
      assert (Y : i ∈ default ∅ (match doc_ops (h_cg h) (gr_id g), caps_of order h g with
                     | [], _ | _, None => ix
                     | _, Some caps => foldl (fun ix i => <[i := {[gr_id g]} ∪ default ∅ (ix !! i)]> ix) ix (order (dom caps)) end !! a) <->
          i ∈ default ∅ (ix !! a) \/ exists caps, gr_id g = i /\ doc_ops (h_cg h) i <> [] /\ caps_of order h g = Some caps /\ is_Some (caps !! a)).
      { destruct (doc_ops (h_cg h) (gr_id g)) as [|c0 l0] eqn:Ed.
        - split; [auto|]. intros [?|(c & <- & Q & _)]; [assumption|]. contradiction.
        - destruct (caps_of order h g) as [caps|]; [|split; [auto|intros [?|(c & _ & _ & Q & _)]; [assumption|discriminate]]]. rewrite Z, (O _), elem_of_elements, elem_of_dom. split.
          + intros [?|[A ->]]; [auto|]. right. exists caps. split; [reflexivity|]. split; [rewrite Ed; discriminate|auto].
          + intros [?|(c & <- & _ & [= <-] & A)]; auto. }
      rewrite Y. split.
      + intros [[?|(c & A)]|(x & c & Hx & A)]; [auto| |]; right; [exists g, c; split; [left|exact A]|exists x, c; split; [right; exact Hx|exact A]].
      + intros [?|(x & c & Hx & A)]; [auto|]. apply elem_of_cons in Hx as [->|Hx]; [left; right; eauto|right; eauto]. }
  rewrite X, lookup_empty. cbn. split; [intros [Q|?]; [set_solver|assumption]|auto].
Qed.
Lemma cgka_batch_lemma a c : c ∈ cgka_for_agent order doc_ops h a <-> c ∈ cgka_ops order doc_ops h a.
Proof.
  unfold cgka_for_agent, cgka_ops. rewrite !concat_in. split.
  - intros (k & Hc & Hk). apply elem_of_list_fmap in Hk as (i & -> & Hi). rewrite (O _), elem_of_elements in Hi. apply cgka_index_raw in Hi as (g & caps & Hg & <- & _ & Ec & A).
    exists (doc_ops (h_cg h) (gr_id g)). split; [exact Hc|]. apply elem_of_list_fmap. exists g. split; [reflexivity|]. unfold docs_reachable. apply elem_of_list_filter. split; [|exact Hg]. unfold reaches. rewrite Ec. apply bool_decide_eq_true, A.
  - intros (k & Hc & Hk). apply elem_of_list_fmap in Hk as (g & -> & Hg). unfold docs_reachable in Hg. apply elem_of_list_filter in Hg as [R Hg]. unfold reaches in R. destruct (caps_of order h g) as [caps|] eqn:Ec; [|discriminate]. apply bool_decide_eq_true in R.
    exists (doc_ops (h_cg h) (gr_id g)). split; [exact Hc|]. apply elem_of_list_fmap. exists (gr_id g). split; [reflexivity|]. rewrite (O _), elem_of_elements. apply cgka_index_raw. exists g, caps. split; [exact Hg|]. split; [reflexivity|]. split; [|auto].
    intros Q. rewrite Q in Hc. inversion Hc.
Qed.
End keys.

(** ** All agents at once *)
Section batch.
Context (order : gset nat -> list nat) (O : some_order order) (doc_content : nat -> ident -> bool).
Context {cg cop : Type} (W : sevent cop -> Prop) (K : ident -> Prop) (T : tame W K).
Context (h : hive cg cop) (I : inv order doc_content W K h).
Notation ops := (has_op h).
Notation found := (found order h).
Definition source_of (g : group) (m : gmap sig mop) : Prop := filed_ops m /\ (forall o, inm m o <-> found true (is_head g) o) /\ forall o e, inm m o -> e ∈ edges order h true o -> inm m e.
Lemma source_ops i g m : has_group h i g -> source_of g m -> forall o, inm m o -> ops o.
Proof.
  intros G (_ & S & _) o Ho. apply S in Ho. induction Ho as [o Ho|o e _ IH He]; [eapply (head_op order O doc_content W K T h I); eauto|eapply (edges_ops order O doc_content W K T h I); eauto].
Qed.
Lemma source_total i g : has_group h i g -> exists m, search order h true (reverse (membership_heads order g)) ∅ = Some m /\ source_of g m.
Proof.
  intros G. destruct (search_spec order O doc_content W K T h I true (reverse (membership_heads order g)) ∅) as (m & E & F & Hm & Cl).
  { intros o Ho. rewrite elem_of_reverse in Ho. apply (heads_spec order O doc_content W K T h I i g o G) in Ho. eapply (head_op order O doc_content W K T h I); eauto. }
  { intros o Ho. unfold inm in Ho. rewrite lookup_empty in Ho. discriminate. } { intros s o Ho. rewrite lookup_empty in Ho. discriminate. } { intros o e Ho. unfold inm in Ho. rewrite lookup_empty in Ho. discriminate. }
  exists m. split; [exact E|]. split; [exact F|]. split; [|exact Cl]. intros o. rewrite Hm. split.
  - intros [Ho|Ho]; [unfold inm in Ho; rewrite lookup_empty in Ho; discriminate|]. eapply found_mono; [|exact Ho]. intros x Hx. cbn beta in Hx. rewrite elem_of_reverse in Hx. apply (heads_spec order O doc_content W K T h I i g x G), Hx.
  - intros Ho. right. eapply found_mono; [|exact Ho]. intros x Hx. cbn beta. rewrite elem_of_reverse. apply (heads_spec order O doc_content W K T h I i g x G), Hx.
Qed.
Lemma add_source_index ix src L a i : i ∈ default ∅ (foldl (fun ix b => add_source ix src b) ix L !! a) <-> i ∈ default ∅ (ix !! a) \/ (a ∈ L /\ i = src).
Proof.
  revert ix. induction L as [|x L IH]; intros ix; cbn [foldl]; [split; [auto|intros [?|[Q _]]; [assumption|inversion Q]]|]. rewrite IH, elem_of_cons. unfold add_source. destruct (decide (x = a)) as [->|N].
  - rewrite lookup_insert. cbn [from_option id]. rewrite elem_of_union, elem_of_singleton. tauto.
  - rewrite lookup_insert_ne by exact N. split; [tauto|]. intros [?|[[?|?] ?]]; [auto|congruence|auto].
Qed.
Definition full_index (x : all_ops) : Prop := forall a s, ao_index x !! a = Some s -> s <> ∅.
Lemma add_source_full (ix : gmap ident (gset ident)) src L : (forall a s, ix !! a = Some s -> s <> ∅) -> forall a s, foldl (fun ix b => add_source ix src b) ix L !! a = Some s -> s <> ∅.
Proof.
  revert ix. induction L as [|x L IH]; intros ix H; cbn [foldl]; [exact H|]. apply IH. intros a s. unfold add_source. intros Q. apply lookup_insert_Some in Q as [[<- <-]|[_ Q]]; [set_solver|eapply H, Q].
Qed.
Lemma groups_phase l : forall x, (forall g, g ∈ l -> has_group h (gr_id g) g) -> full_index x ->
  exists x', foldl (all_ops_group order h) (Some x) l = Some x' /\ full_index x' /\
    (forall g, g ∈ l -> exists m, ao_ops x' !! gr_id g = Some m /\ source_of g m) /\ (forall s, s ∉ gr_id <$> l -> ao_ops x' !! s = ao_ops x !! s) /\
    (forall a i, i ∈ default ∅ (ao_index x' !! a) <-> i ∈ default ∅ (ao_index x !! a) \/ exists g, g ∈ l /\ gr_id g = i /\ reaches order h a g = true).
Proof.
  induction l as [|g l IH]; intros x Hl Fu; cbn [foldl].
  - exists x. split; [reflexivity|]. split; [exact Fu|]. split; [intros g Hg; inversion Hg|]. split; [reflexivity|]. intros a i. split; [auto|]. intros [?|(g & Hg & _)]; [assumption|inversion Hg].
  - assert (G : has_group h (gr_id g) g) by (apply Hl; left). destruct (source_total _ g G) as (m & Em & Sm). destruct (caps_spec order O doc_content W K T h I _ g G) as (caps & Ec & _).
    unfold all_ops_group at 2. rewrite Em, Ec. edestruct IH as (x' & E & Fu' & A & B & D); [intros g' Hg'; apply Hl; right; exact Hg'| |].
    2: { exists x'. split; [exact E|]. split; [exact Fu'|]. split; [|split].
      - intros g' Hg'. apply elem_of_cons in Hg' as [->|Hg']; [|apply A, Hg']. destruct (decide (gr_id g ∈ gr_id <$> l)) as [Q|Q].
        + apply elem_of_list_fmap in Q as (g2 & E2 & H2). assert (g2 = g) as ->. { apply (one_group order doc_content W K h I (gr_id g)); [rewrite E2; apply Hl; right; exact H2|exact G]. } apply A, H2.
        + rewrite (B _ Q). cbn. rewrite lookup_insert. eauto.
      - intros s Hs. rewrite fmap_cons, not_elem_of_cons in Hs. destruct Hs as [H1 H2]. rewrite (B _ H2). cbn. apply lookup_insert_ne. congruence.
      - intros a i. rewrite D. cbn [ao_index]. rewrite add_source_index, (O _), elem_of_elements, elem_of_dom. unfold reaches. split.
        + intros [[?|[Q ->]]|(g' & H1 & H2)]; [auto| |]; right; [exists g; split; [left|]; split; [reflexivity|]; rewrite Ec; apply bool_decide_eq_true, Q|exists g'; split; [right; exact H1|exact H2]].
        + intros [?|(g' & H1 & <- & H2)]; [auto|]. apply elem_of_cons in H1 as [->|H1]; [|right; eauto]. rewrite Ec in H2. apply bool_decide_eq_true in H2. auto. }
    intros a s. cbn [ao_index]. apply add_source_full, Fu.
Qed.
Lemma found_false (S : mop -> Prop) o : found false S o <-> exists s, S s /\ rtc depends_on s o.
Proof.
  split.
  - induction 1 as [o Ho|o e _ (s & Hs & R) He]; [exists o; split; [exact Ho|apply rtc_refl]|]. exists s. split; [exact Hs|]. eapply rtc_r; [exact R|]. unfold edges in He. rewrite app_nil_r in He. exact He.
  - intros (s & Hs & R). assert (X : found false S s) by (apply fd_start, Hs). clear Hs. induction R as [|x y z S1 R IH]; [exact X|]. apply IH. eapply fd_edge; [exact X|]. unfold edges. rewrite app_nil_r. exact S1.
Qed.
Definition sound_map (m : gmap sig mop) : Prop := filed_ops m /\ (forall o, inm m o -> ops o) /\ forall o e, inm m o -> e ∈ parents o -> inm m e.
Lemma revs_phase rs : forall m, sound_map m -> (forall r, r ∈ rs -> ops (MR r)) ->
  exists m', foldl (all_ops_rev order h) (Some m) rs = Some m' /\ sound_map m' /\ forall o, inm m' o <-> inm m o \/ exists r, r ∈ rs /\ rtc depends_on (MR r) o.
Proof.
  induction rs as [|r rs IH]; intros m (F & P & Cl) Hr; cbn [foldl].
  - exists m. split; [reflexivity|]. split; [split; auto|]. intros o. split; [auto|]. intros [?|(r & Q & _)]; [assumption|inversion Q].
  - assert (Or : ops (MR r)) by (apply Hr; left). unfold all_ops_rev at 2. destruct (decide (is_Some (m !! r_sig r))) as [[o' Ho']|N].
    + assert (o' = MR r) as ->. { apply (ops_genuine order doc_content W K T h I); [apply P; unfold inm; rewrite (F _ _ Ho'); exact Ho'|exact Or|apply (F _ _ Ho')]. }
      destruct (IH m) as (m' & E & S' & H'); [split; auto|intros x Hx; apply Hr; right; exact Hx|]. exists m'. split; [exact E|]. split; [exact S'|]. intros o. rewrite H'. split.
      * intros [?|(x & Hx & ?)]; [auto|]. right. exists x. split; [right; exact Hx|assumption].
      * intros [?|(x & Hx & R)]; [auto|]. apply elem_of_cons in Hx as [->|Hx]; [|right; eauto]. left. assert (X : inm m (MR r)) by exact Ho'. clear -R X Cl. induction R as [|x y z S1 R IH']; [exact X|]. apply IH'. eapply Cl; eauto.
    + assert (N' : m !! op_sig (MR r) = None) by (cbn; destruct (m !! r_sig r) eqn:X; [exfalso; apply N; eauto|reflexivity]).
      assert (New : forall x, inm (<[r_sig r := MR r]> m) x <-> x = MR r \/ inm m x).
      { intros x. unfold inm. change (r_sig r) with (op_sig (MR r)). destruct (decide (op_sig (MR r) = op_sig x)) as [Q|Q].
        - rewrite <- Q, lookup_insert. split; [intros [= ->]; auto|]. intros [->|X]; [reflexivity|]. congruence.
        - rewrite lookup_insert_ne by exact Q. split; [auto|]. intros [->|X]; [contradiction|exact X]. }
      destruct (search_spec order O doc_content W K T h I false (reverse (parents (MR r))) (<[r_sig r := MR r]> m)) as (m1 & E1 & F1 & H1 & C1).
      { intros o Ho. rewrite elem_of_reverse in Ho. eapply (ops_closed order O doc_content W K T h I); eauto. }
      { intros o Ho. apply New in Ho as [->|Ho]; [exact Or|auto]. }
      { intros s o Ho. apply lookup_insert_Some in Ho as [[<- <-]|[_ Ho]]; [reflexivity|apply F, Ho]. }
      { intros o e Ho He. unfold edges in He. rewrite app_nil_r in He. rewrite New, elem_of_reverse. apply New in Ho as [->|Ho]; [auto|]. left. right. eapply Cl; eauto. }
      rewrite E1. destruct (IH m1) as (m' & E & S' & H').
      { split; [exact F1|]. split.
        - intros o Ho. apply H1 in Ho as [Ho|Ho]; [apply New in Ho as [->|Ho]; [exact Or|auto]|]. apply found_false in Ho as (s & Hs & R). rewrite elem_of_reverse in Hs.
          assert (X : ops s) by (eapply (ops_closed order O doc_content W K T h I); eauto). clear Hs. induction R as [|x y z S1 R IH']; [exact X|]. apply IH'. eapply (ops_closed order O doc_content W K T h I); eauto.
        - intros o e Ho He. eapply C1; [exact Ho|]. unfold edges. rewrite app_nil_r. exact He. }
      { intros x Hx; apply Hr; right; exact Hx. }
      exists m'. split; [exact E|]. split; [exact S'|]. intros o. rewrite H', H1, New, found_false. split.
      * intros [[[->|?]|(s & Hs & R)]|(x & Hx & R)]; [right; exists r; split; [left|apply rtc_refl]|auto| |right; exists x; split; [right; exact Hx|exact R]].
        rewrite elem_of_reverse in Hs. right. exists r. split; [left|]. eapply rtc_l; [exact Hs|exact R].
      * intros [?|(x & Hx & R)]; [auto|]. apply elem_of_cons in Hx as [->|Hx]; [|right; eauto]. left. inversion R as [|? y ? S1 S2]; subst; [auto|]. right. exists y. rewrite elem_of_reverse. auto.
Qed.
Lemma agents_phase L : forall x, NoDup L -> (forall a, a ∈ L -> exists r, ops (MR r) /\ d_delegate (r_revoke r) = a) -> (forall s m, ao_ops x !! s = Some m -> sound_map m) -> full_index x ->
  exists x', foldl (all_ops_agent order h) (Some x) L = Some x' /\ full_index x' /\
    (forall a, a ∈ L -> exists m, ao_ops x' !! a = Some m /\ filed_ops m /\ forall o, inm m o <-> inm (default ∅ (ao_ops x !! a)) o \/ exists r, ops (MR r) /\ d_delegate (r_revoke r) = a /\ rtc depends_on (MR r) o) /\
    (forall s, s ∉ L -> ao_ops x' !! s = ao_ops x !! s) /\
    (forall a i, i ∈ default ∅ (ao_index x' !! a) <-> i ∈ default ∅ (ao_index x !! a) \/ (a ∈ L /\ i = a)).
Proof.
  induction L as [|b L IH]; intros x ND HL Sx Fu; cbn [foldl].
  - exists x. split; [reflexivity|]. split; [exact Fu|]. split; [intros a Ha; inversion Ha|]. split; [reflexivity|]. intros a i. split; [auto|]. intros [?|[Q _]]; [assumption|inversion Q].
  - apply NoDup_cons in ND as [N1 N2]. unfold all_ops_agent at 2. destruct (revs_phase (revs_for order h b) (default ∅ (ao_ops x !! b))) as (m & Em & Sm & Hm).
    { destruct (ao_ops x !! b) as [m|] eqn:Q; cbn; [eapply Sx, Q|]. split; [intros s o Ho; rewrite lookup_empty in Ho; discriminate|]. split; intros o; unfold inm; rewrite lookup_empty; discriminate. }
    { intros r Hr. apply (revs_for_spec order O doc_content W K h I) in Hr. apply Hr. }
    rewrite Em. assert (Ne : m <> ∅).
    { destruct (HL b (elem_of_list_here _ _)) as (r & Hr & Er). intros ->. assert (X : inm ∅ (MR r)); [|unfold inm in X; rewrite lookup_empty in X; discriminate]. apply Hm. right. exists r. split; [apply (revs_for_spec order O doc_content W K h I); auto|apply rtc_refl]. }
    destruct (decide (m = ∅)) as [?|_]; [contradiction|]. edestruct IH as (x' & E & Fu' & A & B & D); [exact N2|intros a Ha; apply HL; right; exact Ha| | |].
    3: { exists x'. split; [exact E|]. split; [exact Fu'|]. split; [|split].
      - intros a Ha. apply elem_of_cons in Ha as [->|Ha].
        + rewrite (B _ N1). cbn [ao_ops]. rewrite lookup_insert. exists m. split; [reflexivity|]. split; [apply Sm|]. intros o. rewrite Hm. setoid_rewrite (revs_for_spec order O doc_content W K h I). naive_solver.
        + destruct (A a Ha) as (m' & A1 & A2). exists m'. split; [exact A1|]. cbn [ao_ops] in A2. rewrite lookup_insert_ne in A2 by (intros ->; contradiction). exact A2.
      - intros s Hs. apply not_elem_of_cons in Hs as [H1 H2]. rewrite (B _ H2). cbn [ao_ops]. apply lookup_insert_ne. congruence.
      - intros a i. rewrite D. cbn [ao_index]. unfold add_source. rewrite elem_of_cons. destruct (decide (b = a)) as [->|N].
        + rewrite lookup_insert. cbn [from_option id]. rewrite elem_of_union, elem_of_singleton. tauto.
        + rewrite lookup_insert_ne by exact N. split; [tauto|]. intros [?|[[?|?] ?]]; [auto|congruence|auto]. }
    + cbn [ao_ops]. intros s m' Q. apply lookup_insert_Some in Q as [[<- <-]|[_ Q]]; [exact Sm|eapply Sx, Q].
    + unfold full_index. cbn [ao_index]. intros a s Q. unfold add_source in Q. apply lookup_insert_Some in Q as [[<- <-]|[_ Q]]; [set_solver|eapply Fu, Q].
Qed.
Lemma batch_lemma : exists x, membership_ops_all order h = Some x /\ forall a, (forall g, ~ has_group h a g) -> forall o,
  (exists l, ops_for_agent order x a = Some l /\ o ∈ l) <->
  (exists i g, has_group h i g /\ belongs (h_env h) i a /\ (found true (is_head g) o \/ exists r, ops (MR r) /\ d_delegate (r_revoke r) = i /\ rtc depends_on (MR r) o)) \/
  (exists r, ops (MR r) /\ d_delegate (r_revoke r) = a /\ rtc depends_on (MR r) o).
Proof.
  unfold membership_ops_all. rewrite <- foldl_app.
  assert (Hg : forall g, g ∈ entries order (h_groups h) ++ entries order (h_docs h) -> has_group h (gr_id g) g).
  { intros g Hg. apply (all_groups_in order O h) in Hg as (i & G). rewrite (group_id order O doc_content W K T h I i g G). exact G. }
  destruct (groups_phase _ (AllOps ∅ ∅) Hg) as (x1 & E1 & Fu1 & A1 & B1 & D1). { intros a s. cbn. rewrite lookup_empty. discriminate. }
  rewrite E1. set (L := order (revoked_agents order h)).
  assert (HL : forall a, a ∈ L <-> exists r, ops (MR r) /\ d_delegate (r_revoke r) = a).
  { intros a. unfold L. rewrite (O _), elem_of_elements. unfold revoked_agents. rewrite elem_of_list_to_set, elem_of_list_fmap. split.
    - intros (r & -> & Hr). exists r. split; [|reflexivity]. apply (entries_in order O) in Hr as (s & Hs). cbn. rewrite (iv_revs _ _ _ _ _ I _ _ Hs). exact Hs.
    - intros (r & Hr & <-). exists r. split; [reflexivity|]. apply (entries_in order O). eauto. }
  assert (S1 : forall s m, ao_ops x1 !! s = Some m -> sound_map m).
  { intros s m Q. destruct (decide (s ∈ gr_id <$> (entries order (h_groups h) ++ entries order (h_docs h)))) as [X|X]; [|rewrite (B1 _ X) in Q; cbn in Q; rewrite lookup_empty in Q; discriminate].
    apply elem_of_list_fmap in X as (g & -> & Hx). destruct (A1 g Hx) as (m' & Q' & Sm). rewrite Q in Q'. injection Q' as <-. split; [apply Sm|]. split; [eapply source_ops; [apply Hg, Hx|exact Sm]|].
    intros o e Ho He. destruct Sm as (_ & _ & Cl). eapply Cl; [exact Ho|]. unfold edges. apply elem_of_app. auto. }
  destruct (agents_phase L x1) as (x & E & Fu & A & B & D); [unfold L; rewrite (O _); apply NoDup_elements|intros a Ha; apply HL, Ha|exact S1|exact Fu1|].
  exists x. split; [exact E|]. intros a Na o.
  assert (Ix : forall i, i ∈ default ∅ (ao_index x !! a) <-> (exists g, has_group h i g /\ belongs (h_env h) i a) \/ (a ∈ L /\ i = a)).
  { intros i. rewrite D, D1. cbn [ao_index]. rewrite lookup_empty. cbn [from_option id]. split.
    - intros [[Q|(g & Hx & <- & R)]|?]; [set_solver| |auto]. left. exists g. split; [apply Hg, Hx|]. apply (reaches_spec order O doc_content W K T h I _ g a (Hg _ Hx)); [|exact R]. intros Q. apply (Na g). rewrite Q. apply Hg, Hx.
    - intros [(g & G & R)|?]; [|auto]. left. right. exists g. split; [apply (all_groups_in order O h); eauto|]. split; [apply (group_id order O doc_content W K T h I i g G)|]. apply (reaches_spec order O doc_content W K T h I i g a G); [|exact R]. intros ->. exact (Na _ G). }
  assert (Ms : forall i g, has_group h i g -> exists m, ao_ops x !! i = Some m /\ filed_ops m /\ forall o, inm m o <-> found true (is_head g) o \/ exists r, ops (MR r) /\ d_delegate (r_revoke r) = i /\ rtc depends_on (MR r) o).
  { intros i g G. assert (Hx : g ∈ entries order (h_groups h) ++ entries order (h_docs h)) by (apply (all_groups_in order O h); eauto). destruct (A1 g Hx) as (m & Q & Sm). rewrite (group_id order O doc_content W K T h I i g G) in Q.
    destruct (decide (i ∈ L)) as [Li|Li].
    - destruct (A i Li) as (m' & Q' & F' & H'). exists m'. split; [exact Q'|]. split; [exact F'|]. intros o'. rewrite H', Q. cbn [from_option id]. destruct Sm as (_ & Sm & _). rewrite Sm. reflexivity.
    - exists m. rewrite (B _ Li). split; [exact Q|]. split; [apply Sm|]. intros o'. destruct Sm as (_ & Sm & _). rewrite Sm. split; [auto|]. intros [?|(r & Hr & Er & _)]; [assumption|]. exfalso. apply Li, HL. eauto. }
  assert (Ma : a ∈ L -> exists m, ao_ops x !! a = Some m /\ filed_ops m /\ forall o, inm m o <-> exists r, ops (MR r) /\ d_delegate (r_revoke r) = a /\ rtc depends_on (MR r) o).
  { intros La. destruct (A a La) as (m & Q & F & H'). exists m. split; [exact Q|]. split; [exact F|]. intros o'. rewrite H'.
    assert (N : ao_ops x1 !! a = None). { rewrite B1; [cbn; apply lookup_empty|]. intros Y. apply elem_of_list_fmap in Y as (g & -> & Hx). exact (Na _ (Hg _ Hx)). }
    rewrite N. cbn [from_option id]. split; [intros [Y|?]; [unfold inm in Y; rewrite lookup_empty in Y; discriminate|assumption]|auto]. }
  unfold ops_for_agent. split.
  - intros (l & Q & Ho). destruct (ao_index x !! a) as [srcs|] eqn:Es; [|discriminate]. injection Q as <-. apply concat_in in Ho as (k & Ho & Hk). apply elem_of_list_fmap in Hk as (i & -> & Hi). rewrite (O _), elem_of_elements in Hi.
    destruct (ao_ops x !! i) as [m|] eqn:Q; [|inversion Ho]. apply (entries_in order O) in Ho as (s & Hs). apply Ix in Hi as [(g & G & R)|[La ->]].
    + left. exists i, g. split; [exact G|]. split; [exact R|]. destruct (Ms i g G) as (m' & Q' & F & H'). rewrite Q in Q'. injection Q' as <-. apply H'. unfold inm. rewrite (F _ _ Hs). exact Hs.
    + right. destruct (Ma La) as (m' & Q' & F & H'). rewrite Q in Q'. injection Q' as <-. apply H'. unfold inm. rewrite (F _ _ Hs). exact Hs.
  - intros H. assert (X : exists i m, i ∈ default ∅ (ao_index x !! a) /\ ao_ops x !! i = Some m /\ inm m o).
    { destruct H as [(i & g & G & R & H)|(r & Hr & Er & R)].
      - destruct (Ms i g G) as (m & Q & _ & H'). exists i, m. split; [apply Ix; eauto|]. split; [exact Q|]. apply H', H.
      - assert (La : a ∈ L) by (apply HL; eauto). destruct (Ma La) as (m & Q & _ & H'). exists a, m. split; [apply Ix; auto|]. split; [exact Q|]. apply H'. eauto. }
    destruct X as (i & m & Hi & Q & Ho). destruct (ao_index x !! a) as [srcs|] eqn:Es; [|cbn in Hi; set_solver]. cbn [from_option id] in Hi. eexists. split; [reflexivity|]. apply concat_in. exists (entries order m). split; [apply (entries_in order O); eauto|].
    apply elem_of_list_fmap. exists i. rewrite Q. split; [reflexivity|]. rewrite (O _), elem_of_elements. exact Hi.
Qed.
(** Compared with the query for one agent. *)
Lemma offered_below a o p : offered h a o -> rtc depends_on o p -> offered h a p.
Proof. intros X R. induction R as [|u v w S R IH]; [exact X|]. apply IH. eapply off_parent; eauto. Qed.
Lemma offered_found a i g o : has_group h i g -> belongs (h_env h) i a -> found true (is_head g) o -> offered h a o.
Proof.
  intros G B F. induction F as [o Hh|o e _ IH He]; [eapply off_head; eauto|].
  unfold edges in He. apply elem_of_app in He as [He|He]; [eapply off_parent; eauto|]. apply (group_edges_spec order O doc_content W K T h I) in He as (d & g' & y & -> & G' & -> & Hy). eapply off_team; eauto.
Qed.
Lemma batch_sound_lemma x a l o : membership_ops_all order h = Some x -> (forall g, ~ has_group h a g) -> ops_for_agent order x a = Some l -> o ∈ l ->
  offered h a o \/ exists r i g, has_group h i g /\ belongs (h_env h) i a /\ ops (MR r) /\ d_delegate (r_revoke r) = i /\ rtc depends_on (MR r) o.
Proof.
  intros E Na El Ho. destruct batch_lemma as (x' & E' & H). rewrite E in E'. injection E' as <-. destruct (proj1 (H a Na o)) as [(i & g & G & B & [F|(r & Hr)])|(r & Hr & Er & R)]; [eauto| | |].
  - left. eapply offered_found; eauto.
  - right. exists r, i, g. tauto.
  - left. eapply offered_below; [apply off_revoked; eauto|exact R].
Qed.
Lemma batch_complete_lemma x a o : membership_ops_all order h = Some x -> (forall g, ~ has_group h a g) ->
  (forall r d, ops (MR r) -> d_delegate (r_revoke r) = a -> rtc depends_on (MR r) (MD d) -> h_groups h !! d_delegate d = None) ->
  offered h a o -> exists l, ops_for_agent order x a = Some l /\ o ∈ l.
Proof.
  intros E Na N Ho. destruct batch_lemma as (x' & E' & H). rewrite E in E'. injection E' as <-. apply (H a Na).
  assert (X : (exists i g, has_group h i g /\ belongs (h_env h) i a /\ found true (is_head g) o) \/ (exists r, ops (MR r) /\ d_delegate (r_revoke r) = a /\ rtc depends_on (MR r) o)).
  { induction Ho as [i g o G B Ho|r Ho Er|o p _ IH Hp|d g y _ IH G Hy].
    - left. exists i, g. split; [exact G|]. split; [exact B|]. apply fd_start, Ho.
    - right. exists r. split; [exact Ho|]. split; [exact Er|apply rtc_refl].
    - destruct IH as [(i & g & G & B & F)|(r & Hr & Er & R)].
      + left. exists i, g. split; [exact G|]. split; [exact B|]. eapply fd_edge; [exact F|]. unfold edges. apply elem_of_app. left. exact Hp.
      + right. exists r. split; [exact Hr|]. split; [exact Er|]. eapply rtc_r; eauto.
    - destruct IH as [(i & g' & G' & B & F)|(r & Hr & Er & R)].
      + left. exists i, g'. split; [exact G'|]. split; [exact B|]. eapply fd_edge; [exact F|]. unfold edges. apply elem_of_app. right. apply (group_edges_spec order O doc_content W K T h I). exists d, g, y. auto.
      + rewrite (N r d Hr Er R) in G. discriminate. }
  destruct X as [(i & g & G & B & F)|X]; [left; exists i, g; auto|auto].
Qed.
End batch.

(** ** What is offered can be taken *)
Section sync.
Context (order order' : gset nat -> list nat) (O : some_order order) (O' : some_order order') (doc_content : nat -> ident -> bool).
Context {cg cg' cop : Type} `{EqDecision cop} (doc_ops : cg -> ident -> list cop).
Context (cop_doc : cop -> ident) (cop_ok : cop -> bool) (cg_receive : kstore -> cg' -> cop -> cg' * bool) (shuffle : list (sevent cop) -> list (sevent cop)) (Sh : forall l, shuffle l ≡ₚ l).
Context (W : sevent cop -> Prop) (K : ident -> Prop) (T : tame W K).
Context (h : hive cg cop) (C : caught_up order doc_content W K W h).
Context (a : ident) (Na : forall g, ~ has_group h a g) (evs : list (sevent cop)) (Ev : events_for_agent order doc_ops h a = Some evs).
Context (r0 : hive cg' cop) (Bl : blank r0) (batches : list (list (sevent cop))) (Hb : forall x, handed batches x <-> x ∈ evs).
Context (People : forall i, owner W i -> known_agent r0 i = false /\ forall o, EKey o ∈ evs -> ko_issuer o <> i).
Notation W' := (handed batches).
Notation K' := (fun i => known_agent r0 i = true).
Let I := cu_inv _ _ _ _ _ _ C.

Lemma evs_dlg d : EDlg d ∈ evs <-> exists o, offered h a o /\ EDlg d = static_of (cop := cop) o.
Proof.
  destruct (membership_ops_spec order O doc_content W K T h I a Na) as (m & Em & F & Hm). unfold events_for_agent in Ev. rewrite Em in Ev. injection Ev as <-. rewrite !elem_of_app, !elem_of_list_fmap. split.
  - intros [(o & E & Ho)|[(? & Q & _)|(? & Q & _)]]; [|discriminate|discriminate]. exists o. split; [|exact E]. apply (entries_in order O) in Ho as (s & Hs). apply Hm. unfold inm. rewrite (F _ _ Hs). exact Hs.
  - intros (o & Ho & E). left. exists o. split; [exact E|]. apply (entries_in order O). exists (op_sig o). apply Hm, Ho.
Qed.
Lemma evs_rev d : ERev d ∈ evs <-> exists o, offered h a o /\ ERev d = static_of (cop := cop) o.
Proof.
  destruct (membership_ops_spec order O doc_content W K T h I a Na) as (m & Em & F & Hm). unfold events_for_agent in Ev. rewrite Em in Ev. injection Ev as <-. rewrite !elem_of_app, !elem_of_list_fmap. split.
  - intros [(o & E & Ho)|[(? & Q & _)|(? & Q & _)]]; [|discriminate|discriminate]. exists o. split; [|exact E]. apply (entries_in order O) in Ho as (s & Hs). apply Hm. unfold inm. rewrite (F _ _ Hs). exact Hs.
  - intros (o & Ho & E). left. exists o. split; [exact E|]. apply (entries_in order O). exists (op_sig o). apply Hm, Ho.
Qed.
Lemma static_known o : has_op h o -> W (static_of o).
Proof.
  intros Ho. pose proof (iv_sup _ _ _ _ _ I o Ho) as S. destruct S as [x p rs Wx Ok Ep Er _ _ _ _|x t p Wx Ok Et Ep _ _ _]; cbn [static_of dlg_of rev_of d_sig d_issuer d_delegate d_can d_proof d_after d_content r_sig r_issuer r_revoke r_proof r_content].
  - rewrite Ep, Er, <- Ok. destruct x. exact Wx.
  - rewrite Et, Ep, <- Ok. destruct x. exact Wx.
Qed.
Lemma sent_from o : from_events W' o -> from_events W o.
Proof.
  revert o. fix IH 2. intros o [x p rs Wx Ep Er Hp Hr|x t p Wx Et Ep Ht Hp].
  - apply from_dlg; [|exact Ep|exact Er|intros q Hq; apply IH, Hp, Hq|intros q Hq; apply IH, Hr, Hq]. apply Hb, evs_dlg in Wx as (y & Ho & ->). apply static_known, (offered_op order O doc_content W K T h I a), Ho.
  - apply from_rev; [|exact Et|exact Ep|apply IH, Ht|intros q Hq; apply IH, Hp, Hq]. apply Hb, evs_rev in Wx as (y & Ho & ->). apply static_known, (offered_op order O doc_content W K T h I a), Ho.
Qed.
Lemma sent_tame : tame W' K'.
Proof.
  assert (Ow : forall i, owner W' i -> owner W i). { intros i (d & Hd & E). exists d. split; [apply sent_from, Hd|exact E]. }
  assert (M : forall x s, W' x -> ev_sig x = Some s -> W x).
  { intros x s Wx E. apply Hb in Wx. destruct x as [o|c|x|x]; try discriminate; [apply evs_dlg in Wx as (y & Ho & ->)|apply evs_rev in Wx as (y & Ho & ->)]; apply static_known, (offered_op order O doc_content W K T h I a), Ho. }
  split.
  - intros x y s Wx Wy Ex Ey. apply (tm_digests _ _ T x y s); eauto.
  - intros i x y [A A'] [B B']. apply (tm_grants _ _ T i); (split; [apply sent_from|]; assumption).
  - intros d r A B. apply (tm_after _ _ T); [apply sent_from, A|exact B].
  - intros d r A B. apply (tm_proof _ _ T); [apply sent_from, A|exact B].
  - intros d p A B. destruct (tm_chain _ _ T d p (sent_from _ A) B) as [?|X]; [auto|]. right. intros Y. apply X, Ow, Y.
  - intros d p A B. destruct (tm_authority _ _ T d p (sent_from _ A) B) as [?|X]; [auto|]. right. intros Y. apply X, Ow, Y.
  - intros i Hi. destruct (People i (Ow i Hi)) as [P1 P2]. split; [rewrite P1; discriminate|]. intros o Wo. apply P2, Hb, Wo.
Qed.
(** Every operation that the receiver could take was offered. *)
Lemma taken_offered o : from_events W' o -> offered h a o.
Proof.
  intros F. pose proof (sent_from o F) as Fw. pose proof (from_genuine W (tm_digests _ _ T)) as U.
  assert (X : exists o', offered h a o' /\ op_sig o = op_sig o').
  { destruct F as [x p rs Wx _ _ _ _|x t p Wx _ _ _ _]; apply Hb in Wx; [apply evs_dlg in Wx as (o' & Ho' & E)|apply evs_rev in Wx as (o' & Ho' & E)]; exists o'; (split; [exact Ho'|]); destruct o'; cbn in E; try discriminate; injection E as ->; reflexivity. }
  destruct X as (o' & Ho' & E). rewrite (U o o' Fw); [exact Ho'| |exact E]. eapply sup_from, (iv_sup _ _ _ _ _ I), (offered_op order O doc_content W K T h I a), Ho'.
Qed.
(** The delegates of all offered delegations are somebody the receiver knows or gets to know. *)
Context (Delegates : forall d, offered h a (MD d) -> known_agent r0 (d_delegate d) = true \/ (exists o, EKey o ∈ evs /\ ko_issuer o = d_delegate d) \/
  is_Some (h_groups h !! d_delegate d) \/ (is_Some (h_docs h !! d_delegate d) /\ belongs (h_env h) (d_delegate d) a)).
Definition meets (i : ident) : Prop := K' i \/ (exists o, EKey o ∈ evs /\ ko_issuer o = i) \/ ((exists g, has_group h i g) /\ forall d, has_op h (MD d) -> d_subject d = i -> offered h a (MD d)).
Lemma delegate_meets d : offered h a (MD d) -> meets (d_delegate d).
Proof.
  intros Hd. destruct (Delegates d Hd) as [?|[?|[[g G]|[[g G] B]]]]; [left; assumption|right; left; assumption| |]; right; right.
  - split; [exists g; left; exact G|]. intros x Hx Ex. eapply (offered_team order O doc_content W K T h I a d g x); eauto.
  - split; [exists g; right; exact G|]. intros x Hx Ex. eapply (offered_all order O doc_content W K T h I a _ g (MD x)); [right; exact G|exact B|exact Hx|exact Ex].
Qed.
Lemma sent_supported : (forall o, supported W K o -> offered h a o -> supported W' K' o) /\ (forall i, reachable W K i -> meets i -> reachable W' K' i).
Proof.
  apply supported_reachable.
  - intros x p rs Wx Ok Ep Er Hp IHp Hr IHr Ra IHa G Ho. apply sup_dlg; [|exact Ok|exact Ep|exact Er| | | |exact G].
    + apply Hb, evs_dlg. exists (MD (dlg_of x p rs)). split; [exact Ho|]. cbn [static_of dlg_of d_sig d_issuer d_delegate d_can d_proof d_after d_content]. rewrite Ep, Er, <- Ok. destruct x; reflexivity.
    + intros q Hq. apply IHp; [exact Hq|]. eapply off_parent; [exact Ho|]. unfold depends_on, parents. cbn. rewrite Hq. left.
    + intros r Hr'. apply IHr; [exact Hr'|]. eapply off_parent; [exact Ho|]. unfold depends_on, parents. cbn. apply elem_of_app. right. apply elem_of_list_fmap. eauto.
    + apply IHa, (delegate_meets _ Ho).
  - intros x t p Wx Ok Et Ep Ht IHt Hp IHp G Ho. apply sup_rev; [|exact Ok|exact Et|exact Ep| | |exact G].
    + apply Hb, evs_rev. exists (MR (rev_of x t p)). split; [exact Ho|]. cbn [static_of rev_of r_sig r_issuer r_revoke r_proof r_content]. rewrite Et, Ep, <- Ok. destruct x; reflexivity.
    + apply IHt. eapply off_parent; [exact Ho|]. unfold depends_on, parents. cbn. left.
    + intros q Hq. apply IHp; [exact Hq|]. eapply off_parent; [exact Ho|]. unfold depends_on, parents. cbn. rewrite Hq. right. left.
  - intros i Ki [M|[(o & Wo & <-)|[[g G] _]]]; [apply reach_known, M|apply reach_key, Hb, Wo|]. exfalso. destruct (tm_people _ _ T i (group_owner order O doc_content W K T h i g I G)) as [N _]. exact (N Ki).
  - intros o Wo [M|[(o' & Wo' & E')|[[g G] _]]]; [apply reach_known, M|rewrite <- E'; apply reach_key, Hb, Wo'|]. exfalso. destruct (tm_people _ _ T _ (group_owner order O doc_content W K T h _ g I G)) as [_ N]. exact (N o Wo eq_refl).
  - intros d Hd IH [M|[(o' & Wo' & E')|[_ M]]]; [apply reach_known, M|rewrite <- E'; apply reach_key, Hb, Wo'|]. apply reach_group, IH, M; [|reflexivity]. apply (exact_ops order doc_content W K T h C), Hd.
Qed.
Lemma sync_lemma : exists r, ingest_all order' doc_content cop_doc cop_ok cg_receive shuffle r0 batches = Some r /\
  (forall o, has_op r o <-> offered h a o) /\ (forall x, is_membership x -> x ∉ h_pending r) /\
  (forall i g, has_group h i g -> belongs (h_env h) i a -> revoked_once (has_op h) -> exists g', has_group r i g' /\ gr_members g = gr_members g' /\ gr_active g = gr_active g').
Proof.
  destruct (run_client order' O' doc_content cop_doc cop_ok cg_receive shuffle Sh r0 batches Bl sent_tame) as (r & E & Cr). exists r. split; [exact E|].
  pose proof (cu_inv _ _ _ _ _ _ Cr) as Ir.
  assert (Ops : forall o, has_op r o <-> offered h a o).
  { intros o. rewrite (exact_ops order' doc_content W' K' sent_tame r Cr). split.
    - intros S. apply taken_offered. eapply sup_from, S.
    - intros Ho. apply sent_supported; [|exact Ho]. apply (iv_sup _ _ _ _ _ I), (offered_op order O doc_content W K T h I a), Ho. }
  split; [exact Ops|]. split.
  - intros x M Hx. apply (exact_pending order' doc_content W' K' sent_tame r x Cr M) in Hx as [Wx N]. apply Hb in Wx.
    assert (X : exists o, offered h a o /\ ev_sig x = Some (op_sig o)).
    { destruct x as [o|c|x|x]; [destruct M; discriminate|destruct M; discriminate|apply evs_dlg in Wx as (o & Ho & E1)|apply evs_rev in Wx as (o & Ho & E1)]; exists o; (split; [exact Ho|]); destruct o; cbn in E1; try discriminate; injection E1 as ->; reflexivity. }
    destruct X as (o & Ho & Eo). apply (N o); [|exact Eo]. apply (exact_ops order' doc_content W' K' sent_tame r Cr), Ops, Ho.
  - intros i g G B R. destruct (group_ops order O doc_content W K T h i g I G) as (ops & H & _ & _ & Hops & d & Hd & Ed).
    assert (In : forall o, has_op h o /\ op_subject o = i <-> has_op r o /\ op_subject o = i).
    { intros o. rewrite Ops. split; intros [A1 A2]; (split; [|exact A2]); [eapply (offered_all order O doc_content W K T h I a i g); eauto|eapply (offered_op order O doc_content W K T h I a), A1]. }
    destruct (iv_subject _ _ _ _ _ Ir (MD d)) as (g' & G'); [apply (In (MD d)); auto|]. cbn in G'. rewrite Ed in G'. exists g'. split; [exact G'|].
    destruct (group_ops order' O' doc_content W' K' sent_tame r i g' Ir G') as (ops' & H' & _ & _ & Hops' & _).
    assert (S : sound ops). { apply (from_sound W K T ops i). intros o Ho. apply Hops in Ho as [Ho Eo]. split; [eapply sup_from, (iv_sup _ _ _ _ _ I), Ho|exact Eo]. }
    apply (converge_lemma order order' ops ops' g g' O O' H H'); [|apply S|apply S|].
    + intros o. rewrite Hops, Hops'. apply In.
    + intros x y A1 A2. apply R; [apply Hops in A1 as [A1 _]; exact A1|apply Hops in A2 as [A2 _]; exact A2].
Qed.
End sync.
