(** Lemmas for C69. *)
From Coq Require Import Arith Lia.
From stdpp Require Import base list gmap relations.
From Verif Require Import ResModel KeysModel TreeModel OpsModel CgkaModel.
From Verif Require Import AccessModel GroupModel PrekeyModel HiveModel DocModel TallyModel TallySpec.

Lemma counts_iff {A} n (P Q : A -> Prop) : (forall x, P x <-> Q x) -> counts n P -> counts n Q.
Proof. intros E (l & N & H & L). exists l. split; [exact N|]. split; [|exact L]. intros x. rewrite H. apply E. Qed.
Lemma counts_le {A} n m (P Q : A -> Prop) : (forall x, P x -> Q x) -> counts n P -> counts m Q -> n <= m.
Proof.
  intros E (l & N & H & <-) (l' & N' & H' & <-). apply submseteq_length, NoDup_submseteq; [exact N|]. intros x Hx. apply H', E, H, Hx.
Qed.
Lemma counts_unique {A} n m (P : A -> Prop) : counts n P -> counts m P -> n = m.
Proof. intros A1 A2. apply Nat.le_antisymm; eapply counts_le; try eassumption; auto. Qed.
Lemma counts_map {A B} (f : A -> B) n (P : A -> Prop) (Q : B -> Prop) : (forall x y, P x -> P y -> f x = f y -> x = y) -> (forall y, Q y <-> exists x, P x /\ f x = y) -> counts n P -> counts n Q.
Proof.
  intros I E (l & N & H & L). exists (f <$> l). split; [|split; [|rewrite fmap_length; exact L]].
  - apply NoDup_fmap_2_strong; [|exact N]. intros x y Hx Hy. apply I; apply H; assumption.
  - intros y. rewrite elem_of_list_fmap, E. split; intros (x & A1 & A2); exists x; [split; [apply H, A2|symmetry; exact A1]|split; [symmetry; exact A2|apply H, A1]].
Qed.
Lemma counts_dom {A} (m : gmap nat A) : counts (size m) (fun i => is_Some (m !! i)).
Proof.
  exists (elements (dom m)). split; [apply NoDup_elements|]. split; [intros i; rewrite elem_of_elements, elem_of_dom; reflexivity|].
  change (length (elements (dom m))) with (size (dom m)). apply size_dom.
Qed.
Lemma counts_values {A} (m : gmap nat A) (f : A -> nat) : (forall i x, m !! i = Some x -> f x = i) -> counts (size m) (fun x => m !! f x = Some x).
Proof.
  intros K. exists (map_to_list m).*2. split; [|split].
  - apply (NoDup_fmap_1 f). assert (E : f <$> (map_to_list m).*2 = (map_to_list m).*1).
    { rewrite <- list_fmap_compose. apply list_fmap_ext. intros j [i x] Hx. apply elem_of_list_lookup_2, elem_of_map_to_list in Hx. cbn. apply K, Hx. }
    rewrite E. apply NoDup_fst_map_to_list.
  - intros x. rewrite elem_of_list_fmap. split.
    + intros ([i y] & -> & Hx). apply elem_of_map_to_list in Hx. cbn. rewrite (K i y Hx). exact Hx.
    + intros E. exists (f x, x). split; [reflexivity|apply elem_of_map_to_list, E].
  - rewrite fmap_length. reflexivity.
Qed.
Lemma counts_pairs {A B} (f : nat * A -> list B) (l : list (nat * A)) : NoDup l.*1 -> (forall p, NoDup (f p)) ->
  counts (sum_list (map (fun p => length (f p)) l)) (fun q : nat * B => exists x, (q.1, x) ∈ l /\ q.2 ∈ f (q.1, x)).
Proof.
  intros N F. induction l as [|[i x] l IH].
  - exists []. split; [constructor|]. split; [|reflexivity]. intros q. split; [intros X; inversion X|intros (y & X & _); inversion X].
  - cbn in N. apply NoDup_cons in N as [Ni N]. destruct (IH N) as (l' & N' & H' & L'). exists (map (pair i) (f (i, x)) ++ l'). split; [|split].
    + apply NoDup_app. split; [apply NoDup_fmap_2; [intros ? ? E; injection E; auto|apply F]|]. split; [|exact N'].
      intros q Hq Hq'. apply elem_of_list_fmap in Hq as (b & -> & Hb). apply H' in Hq' as (y & Hy & _). apply Ni. apply elem_of_list_fmap. exists (i, y). auto.
    + intros [j b]. rewrite elem_of_app, H'. cbn. split.
      * intros [Hq|(y & Hy & Hb)]; [|exists y; split; [right; exact Hy|exact Hb]]. apply elem_of_list_fmap in Hq as (b' & E & Hb). injection E as -> ->. exists x. split; [left|exact Hb].
      * intros (y & Hy & Hb). apply elem_of_cons in Hy as [E|Hy]; [|right; eauto]. injection E as -> ->. left. apply elem_of_list_fmap. eauto.
    + rewrite app_length, map_length, L'. reflexivity.
Qed.
Lemma count_keys_ok h adds : counts (count_keys (h_keys h) adds) (published h adds).
Proof.
  unfold count_keys. eapply counts_iff; [|apply (counts_pairs (fun p => filter (fun o => is_add o = adds) (elements (in_ops p.2)))); [apply NoDup_fst_map_to_list|intros p; apply NoDup_filter, NoDup_elements]].
  intros [i o]. unfold published. cbn. split; intros (x & Hx & Ho).
  - apply elem_of_map_to_list in Hx. apply elem_of_list_filter in Ho as [A Ho]. apply elem_of_elements in Ho. exists x. split; [exact Hx|]. split; [exact Ho|]. unfold is_add in A.
    destruct (ko_pay o); subst adds; split; eauto; try discriminate. intros [? X]; discriminate.
  - exists x. destruct Ho as [Ho A]. split; [apply elem_of_map_to_list, Hx|]. apply elem_of_list_filter. split; [|apply elem_of_elements, Ho]. unfold is_add.
    destruct (ko_pay o) as [k|a b]; [symmetry; apply A; eauto|]. destruct adds; [|reflexivity]. destruct (proj1 A eq_refl) as [? X]. discriminate.
Qed.
Lemma count_key_ops_ok h : counts (count_key_ops h) (key_op h).
Proof.
  pose (f := fun p : ident * group => match cgka_of h p.1 with Some c => elements (dom (g_ops (c_graph c))) | None => [] end).
  assert (E : count_key_ops h = sum_list (map (fun p => length (f p)) (map_to_list (h_docs h)))).
  { unfold count_key_ops. f_equal. apply map_ext. intros p. unfold f. destruct (cgka_of h p.1) as [c|]; [|reflexivity].
    change (length (elements (dom (g_ops (c_graph c))))) with (size (dom (g_ops (c_graph c)))). symmetry. apply size_dom. }
  rewrite E. eapply counts_iff; [|apply (counts_pairs f); [apply NoDup_fst_map_to_list|]].
  - intros [i o]. unfold key_op, f. cbn [fst snd]. split.
    + intros (g & G & Ho). apply elem_of_map_to_list in G. split; [eauto|]. destruct (cgka_of h i) as [c|]; [|inversion Ho]. exists c. split; [reflexivity|]. apply elem_of_dom, elem_of_elements, Ho.
    + intros [[g G] (c & C & Ho)]. exists g. split; [apply elem_of_map_to_list, G|]. rewrite C. apply elem_of_elements, elem_of_dom, Ho.
  - intros p. unfold f. destruct (cgka_of h p.1); [apply NoDup_elements|constructor].
Qed.
(** ** The queue *)
Lemma counts_shift n (P : nat -> Prop) : counts n (fun i => P (S i)) -> (P 0 -> counts (S n) P) /\ (~ P 0 -> counts n P).
Proof.
  intros (l & N & H & L). split; intros Z.
  - exists (0 :: (S <$> l)). split; [|split].
    + apply NoDup_cons. split; [intros X; apply elem_of_list_fmap in X as (? & ? & _); discriminate|]. apply NoDup_fmap_2; [intros ? ? E; injection E; auto|exact N].
    + intros [|i]; [split; [auto|intros; left]|]. rewrite elem_of_cons, elem_of_list_fmap, <- H. split; [intros [X|(j & E & Hj)]; [discriminate|injection E as ->; exact Hj]|intros Hi; right; eauto].
    + cbn. rewrite fmap_length, L. reflexivity.
  - exists (S <$> l). split; [|split].
    + apply NoDup_fmap_2; [intros ? ? E; injection E; auto|exact N].
    + intros [|i]; [split; [intros X; apply elem_of_list_fmap in X as (? & ? & _); discriminate|intros; contradiction]|]. rewrite elem_of_list_fmap, <- H.
      split; [intros (j & E & Hj); injection E as ->; exact Hj|intros Hi; eauto].
    + rewrite fmap_length. exact L.
Qed.
Lemma counts_nothing {A} (P : A -> Prop) : (forall x, ~ P x) -> counts 0 P.
Proof. intros H. exists []. split; [constructor|]. split; [|reflexivity]. intros x. split; [intros X; inversion X|intros X; destruct (H x X)]. Qed.
Lemma count_waiting_ok a k l : counts (count_waiting a k l).1 (fun n => exists x, l !! n = Some x /\ kind_of x = k) /\
  counts (count_waiting a k l).2 (fun n => exists x, l !! n = Some x /\ kind_of x = k /\ signer_of x = a).
Proof.
  induction l as [|x l [IH1 IH2]]; [split; apply counts_nothing; intros n (y & E & _); rewrite lookup_nil in E; discriminate|]. cbn [count_waiting]. destruct (count_waiting a k l) as [n m]. cbn [fst snd] in IH1, IH2.
  destruct (counts_shift n (fun i => exists y, (x :: l) !! i = Some y /\ kind_of y = k) IH1) as [A1 A2].
  destruct (counts_shift m (fun i => exists y, (x :: l) !! i = Some y /\ kind_of y = k /\ signer_of y = a) IH2) as [B1 B2]. destruct (decide (kind_of x = k)) as [E|E]; cbn [fst snd].
  - split; [apply A1; exists x; auto|]. destruct (signer_of x =? a) eqn:S1; [apply B1; exists x; apply Nat.eqb_eq in S1; auto|]. apply B2. intros (y & Y & _ & S2). injection Y as ->. apply Nat.eqb_neq in S1. auto.
  - split; [apply A2; intros (y & Y & K); injection Y as ->; auto|apply B2; intros (y & Y & K & _); injection Y as ->; auto].
Qed.
Lemma kind_ok k x : kind_of x = k <-> of_kind k x.
Proof.
  split.
  - intros <-. destruct x as [o|o|d|r]; cbn; [|eauto|eauto|eauto]. unfold is_add. destruct (ko_pay o) eqn:E; cbn; eauto 6.
  - destruct k; cbn; [intros (o & p & -> & E)|intros (o & p & q & -> & E)|intros (o & ->)|intros (d & ->)|intros (r & ->)]; cbn; unfold is_add; rewrite ?E; reflexivity.
Qed.
Lemma signer_ok a x : signer_of x = a <-> signed_as a x.
Proof.
  unfold signed_as. split.
  - intros <-. destruct x as [o|o|d|r]; cbn; eauto 10.
  - intros [(o & -> & E)|[(o & -> & E)|[(o & -> & E)|(o & -> & E)]]]; exact E.
Qed.
Lemma waiting_stats h k : waiting (stats h) k = count_waiting (me h) k (h_pending h).
Proof. destruct k; reflexivity. Qed.
Lemma waiting_total a l : (count_waiting a KExpanded l).1 + (count_waiting a KRotated l).1 + (count_waiting a KKey l).1 + (count_waiting a KDlg l).1 + (count_waiting a KRev l).1 = length l.
Proof.
  induction l as [|x l IH]; [reflexivity|]. cbn [count_waiting length]. revert IH.
  destruct (count_waiting a KExpanded l), (count_waiting a KRotated l), (count_waiting a KKey l), (count_waiting a KDlg l), (count_waiting a KRev l). cbn [fst]. intros IH.
  destruct (kind_of x); repeat match goal with |- context [decide ?e] => destruct (decide e) as [?|?]; try congruence end; cbn [fst]; lia.
Qed.
