(** Replaying a history extended by an operation that follows all of it. *)
From Coq Require Import Arith Lia.
From stdpp Require Import base list gmap relations sorting.
From Verif Require Import ResModel KeysModel TreeModel OpsModel OpsSpec OpsInv OpsProofs OpsEpochs OpsPropsProofs.

(** One iteration of the epoch loop. *)
Lemma epoch_step g (E : digest -> digest -> Prop) rank fuel ts succ H next acc Q :
  (forall x y, E x y -> rank x < rank y) ->
  tsq E ts Q -> hinv E H succ Q ->
  (forall x, x ∈ Q -> touches E x) -> (forall x p, x ∈ Q -> E p x -> p ∈ Q) ->
  ts_deps ts <> ∅ ->
  exists l ts' succ' H',
    l = sorted_elements (ready ts) /\
    (forall x, x ∈ l <-> touches E x /\ x ∉ Q /\ forall p, E p x -> p ∈ Q) /\
    tsq E ts' (Q ∪ list_to_set l) /\ hinv E H' succ' (Q ∪ list_to_set l) /\
    epoch_loop (S fuel) g ts succ H next acc =
      (let! os := get_ops g l in
       if size H' <=? 1 then epoch_loop fuel g ts' succ' H' [] (push_epoch os (push_epoch next acc))
       else epoch_loop fuel g ts' succ' H' (next ++ os) acc).
Proof.
  intros Hrank T Hi TQ C Ne. set (l := sorted_elements (ready ts)).
  assert (L : forall x, x ∈ l <-> touches E x /\ x ∉ Q /\ forall p, E p x -> p ∈ Q).
  { intros x. unfold l. rewrite sorted_elements_in. apply (ready_spec E rank Hrank), T. }
  assert (Nl : NoDup l) by apply sorted_elements_nodup.
  pose proof (pop_list_tsq E rank Hrank l ts Q T Nl (fun x Hx => match proj1 (L x) Hx with conj A (conj B _) => conj A B end)) as T'.
  destruct (enter_heads_spec l H succ) as (succ1 & E1 & S1).
  { intros x Hx. apply L in Hx as (Tx & Nx & _). destruct (hi_rest _ _ _ _ Hi x Tx Nx) as (s & Es & _). eauto. }
  pose proof (hinv_step E rank Hrank H succ Q l succ1 Hi TQ L C S1) as Hi'. cbv zeta in Hi'.
  exists l, (foldl pop_one ts l), (foldl (forget (H ∪ list_to_set l)) succ1 l),
    (retain_heads (H ∪ list_to_set l) (foldl (forget (H ∪ list_to_set l)) succ1 l)).
  split; [reflexivity|]. split; [exact L|]. split; [exact T'|]. split; [exact Hi'|].
  cbn [epoch_loop]. unfold ts_is_empty. rewrite bool_decide_eq_false_2 by exact Ne. unfold pop_all. fold l. rewrite E1. cbn [rbind].
  reflexivity.
Qed.

Lemma sorted_elements_unique s l : (forall x, x ∈ s <-> x = l) -> sorted_elements s = [l].
Proof. intros H. assert (s = {[ l ]}) as -> by set_solver. unfold sorted_elements. rewrite elements_singleton. reflexivity. Qed.

Section extend.
Context (g g' : graph) (op : signed_op) (E E' : digest -> digest -> Prop) (rank : digest -> nat).
Let h := so_hash op.
Context (Hrank : forall x y, E' x y -> rank x < rank y).
Context (HE : forall x y, E' x y <-> E x y \/ (x ∈ g_heads g /\ y = h)).
Context (Hfresh : forall x, touches E x -> x <> h).
Context (Hheads : forall x, x ∈ g_heads g -> touches E x).
Context (Hlast : forall x, touches E x -> x ∈ g_heads g <-> forall y, ~ E x y).
Context (Hcover : forall x, touches E x -> exists k, k ∈ g_heads g /\ rtc E x k).
Context (Hne : g_heads g <> ∅).
Context (Hops : forall x, x <> h -> g_ops g' !! x = g_ops g !! x) (Hop : g_ops g' !! h = Some op).

Lemma ext_rank x y : E x y -> rank x < rank y.
Proof. intros H. apply Hrank, HE. auto. Qed.

Lemma ext_touches x : touches E' x <-> touches E x \/ x = h.
Proof.
  split.
  - intros (y & [H|H]); apply HE in H as [H|[H H']]; [left; exists y; auto|left; apply Hheads, H|left; exists y; auto|auto].
  - intros [(y & H)| ->].
    + exists y. destruct H as [H|H]; [left|right]; apply HE; auto.
    + apply set_choose_L in Hne as [x Hx]. exists x. right. apply HE. auto.
Qed.

Lemma ext_hinv H H' succ succ' Q : hinv E H succ Q -> hinv E' H' succ' Q -> (forall x, x ∈ Q -> touches E x) -> H' = H.
Proof.
  intros V V' TQ. apply set_eq. intros x. rewrite (hi_heads _ _ _ _ V), (hi_heads _ _ _ _ V').
  split; intros [Hx A]; (split; [exact Hx|]); pose proof (TQ x Hx) as Tx.
  - destruct A as [A|(y & A & Ny)].
    + left. intros y Ey. apply (A y), HE. auto.
    + apply HE in A as [A|[A ->]]; [right; eauto|]. left. apply Hlast; assumption.
  - destruct A as [A|(y & A & Ny)].
    + right. exists h. split; [apply HE; right; split; [apply Hlast; assumption|reflexivity]|].
      intros Q'. exact (Hfresh h (TQ _ Q') eq_refl).
    + right. exists y. split; [apply HE; auto|exact Ny].
Qed.

Lemma get_ops_ext l : (forall x, x ∈ l -> x <> h) -> get_ops g' l = get_ops g l.
Proof.
  induction l as [|x l IH]; intros N; cbn [get_ops]; [reflexivity|].
  rewrite Hops by (apply N; left). destruct (g_ops g !! x); cbn [ok_or rbind]; [|reflexivity].
  rewrite IH by (intros y Hy; apply N; right; exact Hy). reflexivity.
Qed.

(** When everything else is popped, the last operation forms an epoch of its own. *)
Lemma ext_final fuel ts succ H next acc Q : tsq E' ts Q -> hinv E' H succ Q ->
  (forall x, x ∈ Q <-> touches E x) ->
  epoch_loop (S fuel) g' ts succ H next acc = Ok (push_epoch next acc ++ [[op]]).
Proof.
  intros T V TQ.
  assert (Nh : h ∉ Q) by (intros Q'; exact (Hfresh h (proj1 (TQ h) Q') eq_refl)).
  assert (Th : touches E' h) by (apply ext_touches; auto).
  assert (PQ : forall p, E' p h -> p ∈ Q).
  { intros p Hp. apply HE in Hp as [Hp|[Hp _]]; [exfalso; apply (Hfresh h); [exists p; auto|reflexivity]|]. apply TQ, Hheads, Hp. }
  destruct (epoch_step g' E' rank fuel ts succ H next acc Q Hrank T V) as (l & ts' & succ' & H' & El & L & T' & V' & Eq).
  - intros x Hx. apply ext_touches. left. apply TQ, Hx.
  - intros x p Hx Hp. apply HE in Hp as [Hp|[Hp ->]]; [apply TQ; exists x; auto|contradiction].
  - intros Z. destruct T as [D _]. destruct (holds_lookup _ _ _ h D (conj Th Nh)) as (s & Es & _). rewrite Z in Es. discriminate.
  - assert (l = [h]) as ->.
    { rewrite El. apply sorted_elements_unique. intros x. rewrite <- (sorted_elements_in (ready ts)), <- El, L. split.
      - intros (Tx & Nx & _). apply ext_touches in Tx as [Tx|Tx]; [|exact Tx]. exfalso. apply Nx, TQ, Tx.
      - intros ->. auto. }
    rewrite Eq. cbn [get_ops]. rewrite Hop. cbn [ok_or rbind].
    assert (Hd : forall x, x ∈ H' -> x = h).
    { intros x Hx. apply (hi_heads _ _ _ _ V') in Hx as [Hx A]. destruct (decide (x = h)) as [|N]; [assumption|exfalso].
      assert (Tx : touches E x) by (apply TQ; set_solver). destruct A as [A|(y & A & Ny)].
      - destruct (Hcover x Tx) as (k & Hk & R). destruct R as [x|x z k Ez _]; [apply (A h), HE; auto|apply (A z), HE; auto].
      - apply HE in A as [A|[_ ->]]; [|set_solver]. apply Ny. apply elem_of_union. left. apply TQ. exists x. auto. }
    assert (Sz : size H' <= 1).
    { assert (H' ⊆ {[ h ]}) by (intros x Hx; apply elem_of_singleton, Hd, Hx). apply subseteq_size in H0. rewrite size_singleton in H0. exact H0. }
    apply Nat.leb_le in Sz. rewrite Sz.
    assert (Em : ts_is_empty ts' = true).
    { unfold ts_is_empty. apply bool_decide_eq_true. apply map_eq. intros x. rewrite lookup_empty.
      destruct (ts_deps ts' !! x) as [s|] eqn:Es; [|reflexivity]. destruct T' as [D _]. destruct (D x) as [A _]. destruct (A s Es) as [[Tx Nx] _].
      exfalso. apply Nx. apply ext_touches in Tx as [Tx| ->]; [apply elem_of_union; left; apply TQ, Tx|set_solver]. }
    destruct fuel; cbn [epoch_loop]; rewrite Em; reflexivity.
Qed.

Lemma ext_loop fuel : forall fuel' ts succ H ts' succ' H' next acc Q epochs,
  tsq E ts Q -> hinv E H succ Q -> tsq E' ts' Q -> hinv E' H' succ' Q ->
  (forall x, x ∈ Q -> touches E x) -> (forall x p, x ∈ Q -> E p x -> p ∈ Q) ->
  fuel < fuel' -> epoch_loop fuel g ts succ H next acc = Ok epochs ->
  epoch_loop fuel' g' ts' succ' H' next acc = Ok (epochs ++ [[op]]).
Proof.
  induction fuel as [|fuel IH]; intros fuel' ts succ H ts' succ' H' next acc Q epochs T V T' V' TQ C F Ee.
  all: destruct fuel' as [|fuel']; [lia|].
  all: destruct (decide (ts_deps ts = ∅)) as [Z|Z].
  1,3: assert (Ep : epochs = push_epoch next acc)
    by (cbn [epoch_loop] in Ee; unfold ts_is_empty in Ee; rewrite bool_decide_eq_true_2 in Ee by exact Z; congruence);
    subst epochs; eapply ext_final; [exact T'|exact V'|]; intros x; split; [apply TQ|]; intros Tx;
    destruct (decide (x ∈ Q)) as [Hx|Hx]; [exact Hx|exfalso]; destruct T as [D _];
    destruct (holds_lookup _ _ _ x D (conj Tx Hx)) as (s & Es & _); rewrite Z in Es; discriminate.
  - cbn [epoch_loop] in Ee. unfold ts_is_empty in Ee. rewrite bool_decide_eq_false_2 in Ee by exact Z. discriminate.
  - destruct (epoch_step g E rank fuel ts succ H next acc Q ext_rank T V TQ C Z) as (l & ts1 & succ1 & H1 & El & L & T1 & V1 & Eq1).
    assert (TQ' : forall x, x ∈ Q -> touches E' x) by (intros x Hx; apply ext_touches; auto).
    assert (C' : forall x p, x ∈ Q -> E' p x -> p ∈ Q).
    { intros x p Hx Hp. apply HE in Hp as [Hp|[_ ->]]; [eauto|]. exfalso. exact (Hfresh h (TQ _ Hx) eq_refl). }
    assert (exists x0, touches E x0 /\ x0 ∉ Q) as (x0 & T0 & N0).
    { apply map_choose in Z as (x & s & Es). destruct T as [D _]. destruct (D x) as [A _]. destruct (A s Es) as [[Tx Nx] _]. eauto. }
    assert (Z' : ts_deps ts' <> ∅).
    { intros Z0. destruct T' as [D _]. destruct (holds_lookup _ _ _ x0 D) as (s & Es & _); [split; [apply ext_touches; auto|exact N0]|]. rewrite Z0 in Es. discriminate. }
    destruct (epoch_step g' E' rank fuel' ts' succ' H' next acc Q Hrank T' V' TQ' C' Z') as (l' & ts2 & succ2 & H2 & El' & L' & T2 & V2 & Eq2).
    assert (Lh : forall x, x ∈ l -> x <> h) by (intros x Hx; apply L in Hx as [Tx _]; apply Hfresh, Tx).
    assert (Ell : l' = l).
    { rewrite El, El'. f_equal. apply set_eq. intros x. rewrite <- (sorted_elements_in (ready ts')), <- El', L', <- (sorted_elements_in (ready ts)), <- El, L. split.
      - intros (Tx & Nx & Px). apply ext_touches in Tx as [Tx| ->].
        + split; [exact Tx|]. split; [exact Nx|]. intros p Hp. apply Px, HE. auto.
        + exfalso. destruct (Hcover x0 T0) as (k & Hk & R). assert (Qk : k ∈ Q) by (apply Px, HE; auto).
          clear -R Qk N0 C. induction R as [x|x y z Rxy _ IH]; [auto|]. apply IH; [|exact Qk]. intros Q'. apply N0. eapply C; eauto.
      - intros (Tx & Nx & Px). split; [apply ext_touches; auto|]. split; [exact Nx|]. intros p Hp. apply HE in Hp as [Hp|[_ ->]]; [auto|].
        exfalso. exact (Hfresh h Tx eq_refl). }
    rewrite Ell in T2, V2, Eq2. clear L' El' Ell l'.
    assert (TQ1 : forall x, x ∈ Q ∪ list_to_set l -> touches E x).
    { intros x Hx. apply elem_of_union in Hx as [Hx|Hx]; [auto|]. apply elem_of_list_to_set, L in Hx. tauto. }
    assert (C1 : forall x p, x ∈ Q ∪ list_to_set l -> E p x -> p ∈ Q ∪ list_to_set l).
    { intros x p Hx Hp. apply elem_of_union. left. apply elem_of_union in Hx as [Hx|Hx]; [eauto|].
      apply elem_of_list_to_set, L in Hx as (_ & _ & Px). auto. }
    assert (EH : H2 = H1) by (eapply ext_hinv; eauto). subst H2.
    rewrite Eq1 in Ee. rewrite Eq2, (get_ops_ext l Lh). destruct (get_ops g l) as [os|e| |]; cbn [rbind] in *; try discriminate.
    destruct (size H1 <=? 1); (eapply IH; [exact T1|exact V1|exact T2|exact V2|exact TQ1|exact C1|lia|exact Ee]).
Qed.
End extend.

(** ** The replay of an extended history *)
Lemma hinv_start E (seen : gset digest) succ hs : succ_holds succ hs E -> (forall x, touches E x -> x ∈ hs \/ exists y, E x y) ->
  hinv E ∅ succ ∅.
Proof.
  intros Cw AT. constructor.
  - intros x. set_solver.
  - set_solver.
  - intros x Tx _. apply (holds_lookup _ _ _ x Cw). auto.
Qed.
Lemma tsq_start E ts : ts_holds ts E -> tsq E ts ∅.
Proof.
  intros [D R]. split; [eapply holds_ext; [exact D|..]; intros; set_solver|]. intros x Tx _. exact (holds_lookup _ _ _ x R Tx).
Qed.

(** [g'] is [g] with one more operation, which follows all heads. *)
Record extends (g g' : graph) (op : signed_op) : Prop := {
  ex_ops : g_ops g' = <[so_hash op := op]> (g_ops g);
  ex_fresh : g_ops g !! so_hash op = None;
  ex_preds : op_preds (so_op op) = g_heads g
}.

Lemma ext_pred_of g g' op : GInv g -> extends g g' op -> forall p x, pred_of g' p x <-> pred_of g p x \/ (p ∈ g_heads g /\ x = so_hash op).
Proof.
  intros V X p x. unfold pred_of. rewrite (ex_ops _ _ _ X). split.
  - intros (o & Eo & Hp). apply lookup_insert_Some in Eo as [[<- <-]|[N Eo]]; [|eauto]. right. rewrite <- (ex_preds _ _ _ X). auto.
  - intros [(o & Eo & Hp)|[Hp ->]].
    + exists o. split; [|exact Hp]. rewrite lookup_insert_ne; [exact Eo|]. intros Q. subst x. rewrite (ex_fresh _ _ _ X) in Eo. discriminate.
    + exists op. rewrite lookup_insert, (ex_preds _ _ _ X). auto.
Qed.

Lemma size_pair (k h : digest) : k <> h -> size ({[ k ]} ∪ {[ h ]} : gset digest) = 2.
Proof. intros N. rewrite size_union by set_solver. rewrite !size_singleton. reflexivity. Qed.

Lemma topsort_extend g g' op hs epochs : graph_reachable g -> GInv g' -> single_root g -> extends g g' op ->
  Permutation hs (elements (g_heads g)) -> topsort_for_heads g hs = Ok epochs ->
  topsort_for_heads g' [so_hash op] = Ok (epochs ++ [[op]]).
Proof.
  intros R V' SR X P Et. set (h := so_hash op).
  pose proof (reachable_ginv g R) as V.
  assert (Hf : g_ops g !! h = None) by exact (ex_fresh _ _ _ X).
  assert (Hh : forall x, x ∈ hs <-> x ∈ g_heads g) by (intros x; rewrite P, elem_of_elements; reflexivity).
  assert (N : NoDup hs) by (rewrite P; apply NoDup_elements).
  assert (K : forall x, x ∈ hs -> is_Some (g_ops g !! x)) by (intros x Hx; apply Hh, (gi_heads _ V) in Hx; tauto).
  assert (Hop : g_ops g' !! h = Some op) by (rewrite (ex_ops _ _ _ X); apply lookup_insert).
  assert (Hops : forall x, x <> h -> g_ops g' !! x = g_ops g !! x) by (intros x Nx; rewrite (ex_ops _ _ _ X), lookup_insert_ne by auto; reflexivity).
  assert (PO := ext_pred_of g g' op V X).
  assert (All : forall x, is_Some (g_ops g !! x) -> in_ancestry g hs x).
  { intros x Kx. destruct (some_head_lemma g R x Kx) as (k & Hk & Rk). exists k. split; [apply Hh, Hk|exact Rk]. }
  assert (RM : forall x y, rtc (pred_of g) x y -> rtc (pred_of g') x y).
  { intros x y Rx. induction Rx as [x|x y z Pxy _ IH]; [constructor|]. eapply rtc_l; [apply PO; left; exact Pxy|exact IH]. }
  assert (All' : forall x, is_Some (g_ops g' !! x) <-> in_ancestry g' [h] x).
  { intros x. split.
    - intros Kx. exists h. split; [left|]. destruct (decide (x = h)) as [->|Nx]; [constructor|].
      rewrite Hops in Kx by exact Nx. destruct (some_head_lemma g R x Kx) as (k & Hk & Rk).
      eapply rtc_r; [apply RM, Rk|]. apply PO. right. auto.
    - apply ancestry_known; [exact V'|]. intros y Hy. apply elem_of_list_singleton in Hy as ->. eauto. }
  destruct (walk_spec g hs V N K) as (w & Ew & Sw & Tw & Cw).
  destruct (walk_spec g' [h] V' (NoDup_singleton h)) as (w' & Ew' & Sw' & Tw' & Cw').
  { intros y Hy. apply elem_of_list_singleton in Hy as ->. eauto. }
  set (E := pred_of g). set (E' := pred_of g').
  assert (EE : forall x y, edges_of g (w_seen w) x y <-> E x y).
  { intros x y. unfold edges_of, E. split; [tauto|]. intros Pxy. split; [exact Pxy|]. apply Sw, All. destruct Pxy as (o & Eo & _). eauto. }
  assert (EE' : forall x y, edges_of g' (w_seen w') x y <-> E' x y).
  { intros x y. unfold edges_of, E'. split; [tauto|]. intros Pxy. split; [exact Pxy|]. apply Sw', All'. destruct Pxy as (o & Eo & _). eauto. }
  apply (ts_holds_ext _ _ _ EE) in Tw. apply (succ_holds_ext _ _ _ _ EE) in Cw.
  apply (ts_holds_ext _ _ _ EE') in Tw'. apply (succ_holds_ext _ _ _ _ EE') in Cw'.
  assert (TK : forall x, touches E x -> is_Some (g_ops g !! x)).
  { intros x (y & [Pxy|(o & Eo & _)]); [eapply (gi_closed _ V); exact Pxy|eauto]. }
  assert (HE : forall x y, E' x y <-> E x y \/ (x ∈ g_heads g /\ y = h)) by exact PO.
  assert (Hfresh : forall x, touches E x -> x <> h).
  { intros x Tx ->. apply TK in Tx as [o Eo]. rewrite Hf in Eo. discriminate. }
  assert (Hne : g_heads g <> ∅) by (apply heads_nonempty, R).
  assert (NZ' : ts_deps (w_ts w') <> ∅).
  { apply set_choose_L in Hne as [k Hk]. intros Z. destruct Tw' as [D _]. destruct (holds_lookup _ _ _ h D) as (s & Es & _).
    - exists k. right. apply HE. auto.
    - rewrite Z in Es. discriminate. }
  assert (AT' : forall x, touches E' x -> x ∈ [h] \/ exists y, E' x y).
  { intros x (y & [Pxy|Pxy]); [eauto|]. destruct (decide (x = h)) as [->|Nx]; [left; left|]. right.
    assert (Kx : is_Some (g_ops g !! x)) by (rewrite <- Hops by exact Nx; destruct Pxy as (o & Eo & _); eauto).
    destruct (some_head_lemma g R x Kx) as (k & Hk & Rk). destruct Rk as [x|x z k Pz _]; [exists h; apply HE; auto|exists z; apply HE; auto]. }
  destruct (gi_rank _ V') as [rank Hrank].
  unfold topsort_for_heads in *. rewrite Ew in Et. rewrite Ew'. cbn [rbind] in *.
  unfold ts_is_empty at 1. rewrite bool_decide_eq_false_2 by exact NZ'.
  assert (SzM : forall (m : gmap digest (gset digest)) (X : gset digest), (forall x, is_Some (m !! x) <-> x ∈ X) -> size m = size X).
  { intros m X0 Hm. rewrite <- size_dom. f_equal. apply set_eq. intros x. rewrite elem_of_dom. apply Hm. }
  destruct (decide (ts_deps (w_ts w) = ∅)) as [Z|Z].
  - (* a single operation *)
    unfold ts_is_empty in Et. rewrite bool_decide_eq_true_2 in Et by exact Z.
    assert (NE : forall x, ~ touches E x).
    { intros x Tx. destruct Tw as [D _]. destruct (holds_lookup _ _ _ x D Tx) as (s & Es & _). rewrite Z in Es. discriminate. }
    destruct hs as [|k hs']; [discriminate|].
    assert (NP : forall x o, g_ops g !! x = Some o -> op_preds (so_op o) = ∅).
    { intros x o Eo. apply set_eq. intros p. split; [|intros Q; apply elem_of_empty in Q; contradiction]. intros Hp. exfalso. apply (NE x). exists p. right. exists o. auto. }
    assert (hs' = []) as ->.
    { destruct hs' as [|k' hs']; [reflexivity|]. exfalso. destruct (K k) as [o Eo]; [left|]. destruct (K k') as [o' Eo']; [right; left|].
      assert (k = k') by (eapply SR; eauto). subst. apply NoDup_cons in N as [N _]. apply N. left. }
    destruct (K k) as [o Eo]; [left|]. cbn [get_ops] in Et. rewrite Eo in Et. cbn [ok_or rbind] in Et. injection Et as <-.
    assert (Hk : forall x, x ∈ g_heads g <-> x = k) by (intros x; rewrite <- Hh; apply elem_of_list_singleton).
    assert (Nkh : k <> h) by (intros ->; rewrite Hf in Eo; discriminate).
    assert (E'only : forall x y, E' x y <-> x = k /\ y = h).
    { intros x y. rewrite HE, Hk. split; [|auto]. intros [Q|Q]; [|exact Q]. exfalso. apply (NE x). exists y. auto. }
    assert (T'only : forall x, touches E' x <-> x = k \/ x = h).
    { intros x. split.
      - intros (y & [Q|Q]); apply E'only in Q as [-> ->]; auto.
      - intros [-> | ->]; [exists h; left|exists k; right]; apply E'only; auto. }
    assert (Fs : size (ts_deps (w_ts w')) = 2).
    { rewrite (SzM _ ({[ k ]} ∪ {[ h ]})), (size_pair k h Nkh); [reflexivity|].
      intros x. rewrite elem_of_union, !elem_of_singleton. destruct Tw' as [D _]. destruct (D x) as [A B]. split.
      - intros [s Es]. destruct (A s Es) as [Tx _]. apply T'only, Tx.
      - intros Hx. apply B, T'only, Hx. }
    rewrite Fs.
    destruct (epoch_step g' E' rank 1 (w_ts w') (w_succ w') ∅ [] [] ∅ Hrank (tsq_start _ _ Tw') (hinv_start E' ∅ _ _ Cw' AT'))
      as (l & ts1 & succ1 & H1 & El & L & T1 & V1 & Eq1); [intros x Hx; apply elem_of_empty in Hx; contradiction|intros x p Hx; apply elem_of_empty in Hx; contradiction|exact NZ'|].
    assert (l = [k]) as ->.
    { rewrite El. apply sorted_elements_unique. intros x. rewrite <- (sorted_elements_in (ready (w_ts w'))), <- El, L, T'only. split.
      - intros ([Tx|Tx] & _ & Px); [exact Tx|]. exfalso. subst x. specialize (Px k (proj2 (E'only k h) (conj eq_refl eq_refl))). apply elem_of_empty in Px. exact Px.
      - intros ->. split; [auto|]. split; [apply not_elem_of_empty|]. intros p Hp. apply E'only in Hp as [_ Q]. contradiction. }
    assert (Ek : forall x, x ∈ (∅ : gset digest) ∪ list_to_set [k] <-> x = k) by (clear; set_solver).
    assert (Ekh : forall x, x ∈ (∅ : gset digest) ∪ list_to_set [k] ∪ list_to_set [h] <-> x = k \/ x = h) by (clear; set_solver).
    rewrite Eq1. cbn [get_ops]. rewrite Hops by exact Nkh. rewrite Eo. cbn [ok_or rbind].
    assert (Sz : size H1 <= 1).
    { assert (Sub : H1 ⊆ {[ k ]}).
      { intros x Hx. apply (hi_heads _ _ _ _ V1) in Hx as [Hx _]. apply elem_of_singleton, Ek, Hx. }
      apply subseteq_size in Sub. rewrite size_singleton in Sub. exact Sub. }
    apply Nat.leb_le in Sz. rewrite Sz. cbn [push_epoch app].
    clear Eq1.
    assert (NZ1 : ts_deps ts1 <> ∅).
    { intros Z1. destruct T1 as [D _]. destruct (holds_lookup _ _ _ h D) as (s & Es & _); [split; [apply T'only; auto|rewrite Ek; auto]|].
      rewrite Z1 in Es. discriminate. }
    destruct (epoch_step g' E' rank 0 ts1 succ1 H1 [] [[o]] (∅ ∪ list_to_set [k]) Hrank T1 V1)
      as (l2 & ts2 & succ2 & H2 & El2 & L2 & T2 & V2 & Eq2).
    { intros x Hx. apply T'only. apply Ek in Hx. auto. }
    { intros x p Hx Hp. apply E'only in Hp as [-> ->]. apply Ek. reflexivity. }
    { exact NZ1. }
    assert (l2 = [h]) as ->.
    { rewrite El2. apply sorted_elements_unique. intros x. rewrite <- (sorted_elements_in (ready ts1)), <- El2, L2, T'only. split.
      - intros ([Tx|Tx] & Nx & _); [exfalso; apply Nx, Ek, Tx|exact Tx].
      - intros ->. split; [auto|]. split; [rewrite Ek; auto|]. intros p Hp. apply E'only in Hp as [-> _]. apply Ek. reflexivity. }
    rewrite Eq2. cbn [get_ops]. rewrite Hop. cbn [ok_or rbind].
    assert (Sz2 : size H2 <= 1).
    { assert (Sub : H2 ⊆ {[ h ]}).
      { intros x Hx. apply (hi_heads _ _ _ _ V2) in Hx as [Hx A]. apply elem_of_singleton. destruct (decide (x = h)) as [|Nx]; [assumption|exfalso].
        apply Ekh in Hx as [->|Hx]; [|contradiction]. destruct A as [A|(y & A & Ny)]; [apply (A h), E'only; auto|].
        apply E'only in A as [_ ->]. apply Ny, Ekh. auto. }
      apply subseteq_size in Sub. rewrite size_singleton in Sub. exact Sub. }
    apply Nat.leb_le in Sz2. rewrite Sz2. cbn [push_epoch epoch_loop app].
    assert (Em : ts_is_empty ts2 = true).
    { unfold ts_is_empty. apply bool_decide_eq_true. apply map_eq. intros x. rewrite lookup_empty.
      destruct (ts_deps ts2 !! x) as [s|] eqn:Es; [|reflexivity]. destruct T2 as [D _]. destruct (D x) as [A _]. destruct (A s Es) as [[Tx Nx] _].
      exfalso. apply Nx. apply T'only in Tx. apply Ekh, Tx. }
    rewrite Em. reflexivity.
  - unfold ts_is_empty in Et. rewrite bool_decide_eq_false_2 in Et by exact Z.
    assert (TA : forall x, is_Some (g_ops g !! x) -> touches E x).
    { intros x Kx. destruct Kx as [o Eo]. destruct (decide (op_preds (so_op o) = ∅)) as [Zo|Zo].
      - (* the root: something has it as ancestor *)
        apply map_choose in Z as (z & s & Ez). destruct Tw as [D _]. destruct (D z) as [A _]. destruct (A s Ez) as [(y & Ty) _].
        assert (exists a b, E a b) as (a & b & Eab) by (destruct Ty; eauto).
        assert (Kb : is_Some (g_ops g !! b)) by (destruct Eab as (ob & Eob & _); eauto).
        destruct (root_exists g b V Kb) as (r & o' & Er & Zr & Rr). assert (r = x) by (eapply SR; eauto). subst r.
        destruct Rr as [b|b c b' Rc _]; [|exists c; auto]. destruct Eab as (ob & Eob & Hab). rewrite Er in Eob. injection Eob as <-. rewrite Zr in Hab. apply elem_of_empty in Hab. contradiction.
      - apply set_choose_L in Zo as [p Hp]. exists p. right. exists o. auto. }
    assert (AT : forall x, touches E x -> x ∈ hs \/ exists y, E x y).
    { intros x Tx. destruct (some_head_lemma g R x (TK x Tx)) as (k & Hk & Rk). destruct Rk as [x|x y k Pxy _]; [left; apply Hh, Hk|eauto]. }
    eapply (ext_loop g g' op E E' rank) with (Q := ∅) (fuel := size (ts_deps (w_ts w))); [exact Hrank|exact HE|exact Hfresh|..].
    + intros x Hx. apply TA. apply (gi_heads _ V) in Hx. tauto.
    + intros x Tx. rewrite (gi_heads _ V). split; [tauto|]. intros A. split; [apply TK, Tx|exact A].
    + intros x Tx. apply (some_head_lemma g R x (TK x Tx)).
    + exact Hne.
    + exact Hops.
    + exact Hop.
    + apply tsq_start, Tw.
    + eapply hinv_start; [exact ∅|exact Cw|exact AT].
    + apply tsq_start, Tw'.
    + eapply hinv_start; [exact ∅|exact Cw'|exact AT'].
    + intros x Hx; apply elem_of_empty in Hx; contradiction.
    + intros x p Hx; apply elem_of_empty in Hx; contradiction.
    + assert (S1 : size (ts_deps (w_ts w)) = size (dom (g_ops g))).
      { apply SzM. intros x. rewrite elem_of_dom. destruct Tw as [D _]. destruct (D x) as [A B]. split; [intros [s Es]; apply TK; destruct (A s Es); assumption|].
        intros Kx. apply B, TA, Kx. }
      assert (S2 : size (ts_deps (w_ts w')) = size (dom (g_ops g'))).
      { apply SzM. intros x. rewrite elem_of_dom. destruct Tw' as [D _]. destruct (D x) as [A B]. split.
        - intros [s Es]. destruct (A s Es) as [(y & [Pxy|(o & Eo & _)]) _]; [eapply (gi_closed _ V'); exact Pxy|eauto].
        - intros Kx. apply B. destruct (decide (x = h)) as [->|Nx].
          + apply set_choose_L in Hne as [k Hk]. exists k. right. apply HE. auto.
          + rewrite Hops in Kx by exact Nx. destruct (TA x Kx) as (y & [Q|Q]); exists y; [left|right]; apply HE; auto. }
      rewrite S1, S2, (ex_ops _ _ _ X), dom_insert_L, size_union, size_singleton; [lia|].
      intros x. rewrite elem_of_singleton, elem_of_dom. intros ->. fold h. rewrite Hf. intros [? Q]; discriminate.
    + exact Et.
Qed.

(** ** The replay of an operation's ancestry does not depend on the rest of the graph *)
Lemma pop_one_dom ts n x : is_Some (ts_deps (pop_one ts n) !! x) -> is_Some (ts_deps ts !! x).
Proof.
  unfold pop_one. destruct (ts_rdeps ts !! n) as [ds|]; cbn.
  - assert (G : forall m : gmap digest (gset digest), is_Some (set_fold (fun d m => alter (fun s => s ∖ {[ n ]}) d m) m ds !! x) -> is_Some (m !! x)).
    { intros m. apply (set_fold_ind_L (fun m' _ => is_Some (m' !! x) -> is_Some (m !! x))); [auto|].
      intros y Y m' _ IH. rewrite lookup_alter_is_Some. exact IH. }
    intros H. apply G in H. rewrite lookup_delete_is_Some in H. tauto.
  - rewrite lookup_delete_is_Some. tauto.
Qed.
Lemma pop_list_dom l : forall ts x, is_Some (ts_deps (foldl pop_one ts l) !! x) -> is_Some (ts_deps ts !! x).
Proof. induction l as [|y l IH]; intros ts x; cbn; [auto|]. intros H. apply IH in H. eapply pop_one_dom; eauto. Qed.

Lemma get_ops_agree g g' l : (forall x, x ∈ l -> g_ops g !! x = g_ops g' !! x) -> get_ops g l = get_ops g' l.
Proof.
  induction l as [|x l IH]; intros H; cbn [get_ops]; [reflexivity|]. rewrite (H x) by left.
  destruct (g_ops g' !! x); cbn [ok_or rbind]; [|reflexivity]. rewrite IH by (intros y Hy; apply H; right; exact Hy). reflexivity.
Qed.

Lemma epoch_loop_agree g g' f : forall ts s H n a, (forall x, is_Some (ts_deps ts !! x) -> g_ops g !! x = g_ops g' !! x) ->
  epoch_loop f g ts s H n a = epoch_loop f g' ts s H n a.
Proof.
  induction f as [|f IH]; intros ts s H n a A; cbn [epoch_loop]; [reflexivity|]. destruct (ts_is_empty ts); [reflexivity|].
  unfold pop_all. set (l := sorted_elements (ready ts)).
  assert (L : get_ops g l = get_ops g' l).
  { apply get_ops_agree. intros x Hx. apply A. unfold l in Hx. apply sorted_elements_in in Hx. unfold ready in Hx.
    apply elem_of_dom in Hx as [t Ht]. apply map_filter_lookup_Some in Ht as [Ht _]. eauto. }
  destruct (enter_heads (H, s) l) as [[a1 b1]| | |]; cbn [rbind]; try reflexivity.
  rewrite L. destruct (get_ops g' l); cbn [rbind]; try reflexivity.
  assert (A' : forall x, is_Some (ts_deps (foldl pop_one ts l) !! x) -> g_ops g !! x = g_ops g' !! x) by (intros x Hx; apply A; eapply pop_list_dom; eauto).
  destruct (size _ <=? 1); apply IH; exact A'.
Qed.

Lemma same_ancestry g g' ops h x : GInv g -> GInv g' -> g_ops g ⊆ ops -> g_ops g' ⊆ ops -> is_Some (g_ops g !! h) -> is_Some (g_ops g' !! h) ->
  rtc (pred_of g) x h -> rtc (pred_of g') x h /\ g_ops g !! x = g_ops g' !! x.
Proof.
  intros V V' S S' K K' R.
  assert (Same : forall y, is_Some (g_ops g !! y) -> is_Some (g_ops g' !! y) -> g_ops g !! y = g_ops g' !! y).
  { intros y [o E] [o' E']. rewrite E, E'. f_equal. pose proof (lookup_weaken _ _ _ _ E S). pose proof (lookup_weaken _ _ _ _ E' S'). congruence. }
  induction R as [x|x y z P _ IH]; [split; [constructor|auto]|]. destruct (IH K K') as [R' E].
  destruct P as (o & Eo & Hp). assert (P' : pred_of g' x y) by (exists o; rewrite <- E; auto).
  split; [eapply rtc_l; [exact P'|exact R']|]. apply Same; [eapply (gi_closed _ V); exists o; eauto|eapply (gi_closed _ V'); exact P'].
Qed.

Lemma topsort_same_ancestry g g' ops h : GInv g -> GInv g' -> g_ops g ⊆ ops -> g_ops g' ⊆ ops -> is_Some (g_ops g !! h) -> is_Some (g_ops g' !! h) ->
  topsort_for_heads g [h] = topsort_for_heads g' [h].
Proof.
  intros V V' S S' K K'.
  destruct (walk_spec g [h] V (NoDup_singleton h)) as (w & Ew & Sw & Tw & Cw).
  { intros y Hy. apply elem_of_list_singleton in Hy as ->. exact K. }
  destruct (walk_spec g' [h] V' (NoDup_singleton h)) as (w' & Ew' & Sw' & Tw' & Cw').
  { intros y Hy. apply elem_of_list_singleton in Hy as ->. exact K'. }
  assert (F : forall x, in_ancestry g [h] x -> in_ancestry g' [h] x /\ g_ops g !! x = g_ops g' !! x).
  { intros x (k & Hk & R). apply elem_of_list_singleton in Hk as ->. destruct (same_ancestry g g' ops h x V V' S S' K K' R) as [A B].
    split; [exists h; split; [left|exact A]|exact B]. }
  assert (B : forall x, in_ancestry g' [h] x -> in_ancestry g [h] x).
  { intros x (k & Hk & R). apply elem_of_list_singleton in Hk as ->. destruct (same_ancestry g' g ops h x V' V S' S K' K R) as [A _].
    exists h; split; [left|exact A]. }
  assert (ES : forall x, x ∈ w_seen w <-> x ∈ w_seen w') by (intros x; rewrite Sw, Sw'; split; [intros A; apply F, A|apply B]).
  assert (EE : forall x y, edges_of g (w_seen w) x y <-> edges_of g' (w_seen w') x y).
  { intros x y. unfold edges_of, pred_of. split; intros [(o & Eo & Hp) Hy].
    - split; [|apply ES, Hy]. apply Sw, F in Hy as [_ E]. exists o. rewrite <- E. auto.
    - apply ES in Hy. split; [|exact Hy]. apply Sw, F in Hy as [_ E]. exists o. rewrite E. auto. }
  apply (ts_holds_ext _ _ _ EE) in Tw. apply (succ_holds_ext _ _ _ _ EE) in Cw.
  assert (Et : w_ts w = w_ts w').
  { destruct (w_ts w) as [d r], (w_ts w') as [d' r']. destruct Tw as [A A'], Tw' as [C C']. cbn in *. f_equal; eapply holds_unique; eauto. }
  assert (Ec : w_succ w = w_succ w') by (eapply holds_unique; [exact Cw|exact Cw']).
  unfold topsort_for_heads. rewrite Ew, Ew'. cbn [rbind]. rewrite Et, Ec.
  destruct (ts_is_empty _).
  - rewrite (get_ops_agree g g'); [reflexivity|]. intros x Hx. apply elem_of_list_singleton in Hx as ->. apply F. exists h. split; [left|constructor].
  - apply epoch_loop_agree. intros x [s Es]. destruct Tw' as [D _]. destruct (D x) as [A _]. destruct (A s Es) as [(y & Ty) _].
    assert (Ax : in_ancestry g' [h] x).
    { destruct Ty as [[P Hy]|[P Hx]]; [|apply Sw', Hx]. apply Sw' in Hy. eapply ancestry_pred; [exact Hy|exact P]. }
    apply F, B, Ax.
Qed.
