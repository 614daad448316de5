(** The grouping of the replay order into epochs. *)
From Coq Require Import Arith Lia.
From stdpp Require Import base list gmap relations sorting.
From Verif Require Import ResModel KeysModel TreeModel OpsModel OpsSpec OpsInv OpsProofs.

Lemma set_fold_alter (f : gset digest -> gset digest) (m : gmap digest (gset digest)) (X : gset digest) x :
  set_fold (fun d m => alter f d m) m X !! x = if decide (x ∈ X) then f <$> m !! x else m !! x.
Proof.
  assert (H : (x ∈ X -> set_fold (fun d m => alter f d m) m X !! x = f <$> m !! x) /\
              (x ∉ X -> set_fold (fun d m => alter f d m) m X !! x = m !! x)).
  { apply (set_fold_ind_L (fun m' X => (x ∈ X -> m' !! x = f <$> m !! x) /\ (x ∉ X -> m' !! x = m !! x))).
    - split; [set_solver|reflexivity].
    - intros d X' m' Nd [A B]. destruct (decide (x = d)) as [->|Ne].
      + rewrite lookup_alter. rewrite (B Nd). split; [reflexivity|set_solver].
      + rewrite lookup_alter_ne by auto. split; intros; [apply A|apply B]; set_solver. }
  destruct (decide (x ∈ X)); apply H; assumption.
Qed.

Lemma forget_lookup H σ h k :
  forget H σ h !! k = if decide (k ∈ H /\ h <> k) then (fun s => s ∖ {[ h ]}) <$> σ !! k else σ !! k.
Proof.
  assert (HH : (k ∈ H /\ h <> k -> forget H σ h !! k = (fun s => s ∖ {[ h ]}) <$> σ !! k) /\
               (~ (k ∈ H /\ h <> k) -> forget H σ h !! k = σ !! k)).
  { unfold forget.
    apply (set_fold_ind_L (fun m' X => (k ∈ X /\ h <> k -> m' !! k = (fun s => s ∖ {[ h ]}) <$> σ !! k) /\
                                       (~ (k ∈ X /\ h <> k) -> m' !! k = σ !! k))).
    - split; [set_solver|reflexivity].
    - intros d X' m' Nd [A B]. destruct (decide (h = d)) as [->|Nh].
      + split; intros Q; [apply A|apply B]; set_solver.
      + destruct (decide (k = d)) as [->|Ne].
        * rewrite lookup_alter. rewrite B by tauto. split; [reflexivity|]. intros Q. exfalso. apply Q. split; [set_solver|exact Nh].
        * rewrite lookup_alter_ne by auto. split; intros Q; [apply A|apply B]; set_solver. }
  destruct (decide (k ∈ H /\ h <> k)); apply HH; assumption.
Qed.

Lemma forget_all_lookup H l σ k :
  foldl (forget H) σ l !! k =
  if decide (k ∈ H) then (fun s => s ∖ (list_to_set l ∖ {[ k ]})) <$> σ !! k else σ !! k.
Proof.
  revert σ; induction l as [|h l IH]; intros σ; cbn [foldl].
  - destruct (decide (k ∈ H)); [|reflexivity]. destruct (σ !! k) as [s|]; cbn; [|reflexivity]. f_equal. set_solver.
  - rewrite IH, forget_lookup. destruct (decide (k ∈ H)) as [Hk|Hk].
    + destruct (decide (h = k)) as [->|Ne].
      * rewrite decide_False by tauto. destruct (σ !! k); cbn; [|reflexivity]. f_equal. set_solver.
      * rewrite decide_True by tauto. destruct (σ !! k); cbn; [|reflexivity]. f_equal. set_solver.
    + rewrite decide_False by tauto. reflexivity.
Qed.

Lemma enter_heads_spec l H σ : (forall x, x ∈ l -> is_Some (σ !! x)) ->
  exists σ', enter_heads (H, σ) l = Ok (H ∪ list_to_set l, σ') /\
    forall x, σ' !! x = if decide (x ∈ l) then (fun s => if decide (s = ∅) then {[ x ]} else s) <$> σ !! x else σ !! x.
Proof.
  revert H σ; induction l as [|h l IH]; intros H σ K; cbn [enter_heads].
  - exists σ. split; [do 2 f_equal; set_solver|]. intros x. rewrite decide_False by (apply not_elem_of_nil). reflexivity.
  - destruct (K h) as [s Es]; [left|]. unfold enter_head. rewrite Es. cbn [expect rbind].
    destruct (IH (H ∪ {[ h ]}) (if decide (s = ∅) then <[h:={[ h ]}]> σ else σ)) as (σ' & E & L).
    + intros x Hx. destruct (decide (s = ∅)); [|apply K; right; exact Hx].
      destruct (decide (x = h)) as [->|Ne]; [rewrite lookup_insert; eauto|rewrite lookup_insert_ne by auto; apply K; right; exact Hx].
    + rewrite E. exists σ'. split; [do 2 f_equal; set_solver|]. intros x. rewrite L.
      destruct (decide (x = h)) as [->|Ne].
      * rewrite (decide_True (P := h ∈ h :: l)) by left. rewrite Es. destruct (decide (s = ∅)) as [->|Ns].
        -- rewrite lookup_insert. cbn. rewrite (decide_True (P := (∅ : gset digest) = ∅)) by reflexivity.
           destruct (decide (h ∈ l)); [|reflexivity]. rewrite decide_False by set_solver. reflexivity.
        -- rewrite Es. cbn. rewrite (decide_False (P := s = ∅)) by exact Ns. destruct (decide (h ∈ l)); reflexivity.
      * assert (Q : (if decide (s = ∅) then <[h:={[ h ]}]> σ else σ) !! x = σ !! x).
        { destruct (decide (s = ∅)); [rewrite lookup_insert_ne by auto|]; reflexivity. }
        rewrite Q. destruct (decide (x ∈ l)) as [Hx|Hx].
        -- rewrite decide_True by (right; exact Hx). reflexivity.
        -- rewrite decide_False by (rewrite elem_of_cons; tauto). reflexivity.
Qed.

(** ** Popping a layer *)
Section epochs.
Context (E : digest -> digest -> Prop).
Context (rank : digest -> nat) (Hrank : forall x y, E x y -> rank x < rank y).

(** The sorter after the operations in [Q] have been popped. *)
Definition tsq (ts : topsort) (Q : gset digest) : Prop :=
  holds (ts_deps ts) (fun x => touches E x /\ x ∉ Q) (fun x p => E p x /\ p ∉ Q) /\
  (forall x, touches E x -> x ∉ Q -> exists s, ts_rdeps ts !! x = Some s /\ forall y, y ∈ s <-> E x y).

Lemma pop_one_tsq ts Q n : tsq ts Q -> touches E n -> n ∉ Q -> tsq (pop_one ts n) (Q ∪ {[ n ]}).
Proof.
  intros [D R] T N. unfold pop_one. destruct (R n T N) as (ds & Er & Hd). rewrite Er. split; cbn [ts_deps ts_rdeps].
  - intros x. rewrite set_fold_alter. destruct (D x) as [A B]. destruct (decide (x = n)) as [->|Ne].
    + rewrite lookup_delete. split.
      * intros s Q'. destruct (decide (n ∈ ds)); discriminate.
      * intros [_ Q']. set_solver.
    + rewrite lookup_delete_ne by auto. split.
      * intros s Es. destruct (ts_deps ts !! x) as [s0|] eqn:E0; [|destruct (decide (x ∈ ds)); discriminate].
        destruct (A s0 eq_refl) as [[Tx Nx] Hs]. split; [split; [exact Tx|set_solver]|]. intros p.
        destruct (decide (x ∈ ds)) as [Hx|Hx]; cbn in Es; injection Es as <-.
        -- rewrite elem_of_difference, Hs. set_solver.
        -- rewrite Hs, elem_of_union, elem_of_singleton. split; [|tauto]. intros [H1 H2]. split; [exact H1|].
           intros [H3| ->]; [auto|]. apply Hx, Hd, H1.
      * intros [Tx Nx]. destruct B as [s Es]; [split; [exact Tx|set_solver]|]. rewrite Es. destruct (decide (x ∈ ds)); cbn; eauto.
  - intros x Tx Nx. assert (x <> n) by set_solver. rewrite lookup_delete_ne by auto. apply R; [exact Tx|set_solver].
Qed.

Lemma pop_list_tsq l ts Q : tsq ts Q -> NoDup l -> (forall x, x ∈ l -> touches E x /\ x ∉ Q) ->
  tsq (foldl pop_one ts l) (Q ∪ list_to_set l).
Proof.
  revert ts Q; induction l as [|n l IH]; intros ts Q V N H; cbn [foldl].
  - replace (Q ∪ list_to_set []) with Q by set_solver. exact V.
  - apply NoDup_cons in N as [Nn N]. destruct (H n) as [T NQ]; [left|].
    replace (Q ∪ list_to_set (n :: l)) with ((Q ∪ {[ n ]}) ∪ list_to_set l) by set_solver.
    apply IH; [apply pop_one_tsq; assumption|exact N|]. intros x Hx. destruct (H x) as [Tx NQx]; [right; exact Hx|].
    split; [exact Tx|]. intros Q'. apply elem_of_union in Q' as [Q'|Q']; [auto|]. apply elem_of_singleton in Q' as ->. auto.
Qed.

Lemma ready_spec ts Q x : tsq ts Q -> x ∈ ready ts <-> touches E x /\ x ∉ Q /\ forall p, E p x -> p ∈ Q.
Proof.
  intros [D _]. unfold ready. rewrite elem_of_dom. destruct (D x) as [A B]. split.
  - intros [s Es]. apply map_filter_lookup_Some in Es as [Es H]. cbn in H. subst s. destruct (A _ Es) as [[T N] Hs].
    split; [exact T|]. split; [exact N|]. intros p Hp. destruct (decide (p ∈ Q)) as [H|H]; [exact H|].
    assert (p ∈ (∅ : gset digest)) by (apply Hs; auto). set_solver.
  - intros (T & N & F). destruct B as [s Es]; [auto|]. exists s. apply map_filter_lookup_Some. split; [exact Es|]. cbn.
    destruct (A _ Es) as [_ Hs]. apply set_eq. intros p. split; [|set_solver]. intros H. apply Hs in H as [H1 H2]. exfalso. auto.
Qed.

Lemma ready_nonempty ts Q x : tsq ts Q -> touches E x -> x ∉ Q -> exists y, y ∈ ready ts.
Proof.
  intros V. remember (rank x) as n eqn:Hn. revert x Hn. induction (lt_wf n) as [n _ IH]. intros x -> T N.
  destruct V as [D R]. destruct (holds_lookup _ _ _ x D (conj T N)) as (s & Es & Hs).
  destruct (decide (s = ∅)) as [->|Ns].
  - exists x. apply (ready_spec ts Q); [split; assumption|]. split; [exact T|]. split; [exact N|]. intros p Hp.
    destruct (decide (p ∈ Q)) as [H|H]; [exact H|]. assert (p ∈ (∅ : gset digest)) by (apply Hs; auto). set_solver.
  - apply set_choose_L in Ns as [p Hp]. apply Hs in Hp as [Hp NQ].
    apply (IH (rank p)) with (x := p); auto. exists x. auto.
Qed.

(** The epoch heads and the successor map. *)
Record hinv (H : gset digest) (σ : gmap digest (gset digest)) (Q : gset digest) : Prop := {
  hi_heads x : x ∈ H <-> x ∈ Q /\ ((forall y, ~ E x y) \/ exists y, E x y /\ y ∉ Q);
  hi_cur x : x ∈ H -> exists s, σ !! x = Some s /\ forall y, y ∈ s <-> (E x y /\ y ∉ Q) \/ ((forall y, ~ E x y) /\ y = x);
  hi_rest x : touches E x -> x ∉ Q -> exists s, σ !! x = Some s /\ forall y, y ∈ s <-> E x y
}.

Lemma hinv_step H σ Q l σ1 :
  hinv H σ Q -> (forall x, x ∈ Q -> touches E x) ->
  (forall x, x ∈ l <-> touches E x /\ x ∉ Q /\ forall p, E p x -> p ∈ Q) ->
  (forall x p, x ∈ Q -> E p x -> p ∈ Q) ->
  (forall x, σ1 !! x = if decide (x ∈ l) then (fun s => if decide (s = ∅) then {[ x ]} else s) <$> σ !! x else σ !! x) ->
  let H1 := H ∪ list_to_set l in
  let σ' := foldl (forget H1) σ1 l in
  hinv (retain_heads H1 σ') σ' (Q ∪ list_to_set l).
Proof.
  intros V TQ L C E1. cbv zeta. set (H1 := H ∪ list_to_set l). set (σ' := foldl (forget H1) σ1 l).
  assert (Irr : forall x, ~ E x x) by (intros x Q'; apply Hrank in Q'; lia).
  (* the value at every head, before filtering *)
  assert (K : forall x, x ∈ H1 -> exists s, σ' !! x = Some s /\
    forall y, y ∈ s <-> (E x y /\ y ∉ Q ∪ list_to_set l) \/ ((forall y, ~ E x y) /\ y = x)).
  { intros x Hx. unfold σ'. rewrite forget_all_lookup, decide_True by exact Hx. rewrite E1.
    destruct (decide (x ∈ l)) as [Hl|Hl].
    - apply L in Hl as Hl'. destruct Hl' as (T & N & F). destruct (hi_rest _ _ _ V x T N) as (s & Es & Hs). rewrite Es. cbn.
      eexists. split; [reflexivity|]. intros y. rewrite elem_of_difference.
      assert (Sl : E x y -> y ∉ l) by (intros Exy Hy; apply L in Hy as (_ & _ & Fy); exact (N (Fy x Exy))).
      assert (SQ : E x y -> y ∉ Q) by (intros Exy Hy; exact (N (C y x Hy Exy))).
      destruct (decide (s = ∅)) as [Z|Z].
      + assert (forall y, ~ E x y) by (intros z Q'; apply Hs in Q'; rewrite Z in Q'; set_solver).
        rewrite elem_of_singleton. split; [intros [-> _]; auto|]. intros [[Q' _]|[_ ->]]; [exfalso; eapply H0; eauto|]. set_solver.
      + rewrite Hs. split.
        * intros [Exy _]. left. split; [exact Exy|]. rewrite elem_of_union, elem_of_list_to_set. specialize (Sl Exy); specialize (SQ Exy). tauto.
        * intros [[Exy _]|[Q' _]]; [|apply set_choose_L in Z as [z Hz]; apply Hs in Hz; exfalso; eapply Q'; eauto].
          split; [exact Exy|]. specialize (Sl Exy). set_solver.
    - assert (Hh : x ∈ H) by (unfold H1 in Hx; set_solver).
      destruct (hi_cur _ _ _ V x Hh) as (s & Es & Hs). rewrite Es. cbn. eexists. split; [reflexivity|]. intros y.
      rewrite elem_of_difference, Hs, elem_of_difference, elem_of_union, elem_of_list_to_set, elem_of_singleton. split.
      + intros [[[Exy NQ]|[Z ->]] Q']; [left|right; auto]. split; [exact Exy|]. intros [A|A]; [auto|]. apply Q'. split; [exact A|].
        intros ->. exact (Irr _ Exy).
      + intros [[Exy NQ]|[Z ->]].
        * split; [left; tauto|]. tauto.
        * split; [auto|]. tauto. }
  assert (Hd : forall x, x ∈ retain_heads H1 σ' <-> x ∈ H1 /\ ((forall y, ~ E x y) \/ exists y, E x y /\ y ∉ Q ∪ list_to_set l)).
  { intros x. unfold retain_heads. rewrite elem_of_filter. split.
    - intros [A B]. split; [exact B|]. destruct (K x B) as (s & Es & Hs). rewrite Es in A. cbn in A.
      apply set_choose_L in A as [y Hy]. apply Hs in Hy as [Hy|[Z _]]; eauto.
    - intros [B A]. split; [|exact B]. destruct (K x B) as (s & Es & Hs). rewrite Es. cbn. intros Z. subst s. destruct A as [A|[y A]].
      + assert (x ∈ (∅ : gset digest)) by (apply Hs; auto). set_solver.
      + assert (y ∈ (∅ : gset digest)) by (apply Hs; auto). set_solver. }
  constructor.
  - intros x. rewrite Hd. unfold H1. rewrite !elem_of_union, elem_of_list_to_set, (hi_heads _ _ _ V).
    split.
    + intros [A B]. split; [tauto|exact B].
    + intros [[A|A] B]; (split; [|exact B]); [left|right; exact A]. split; [exact A|]. destruct B as [B|(y & B1 & B2)]; [auto|].
      right. exists y. split; [exact B1|]. set_solver.
  - intros x Hx. apply Hd in Hx as [Hx _]. apply K, Hx.
  - intros x T N. assert (N1 : x ∉ Q) by set_solver. assert (N2 : x ∉ l) by set_solver.
    destruct (hi_rest _ _ _ V x T N1) as (s & Es & Hs). exists s. split; [|exact Hs].
    assert (N3 : x ∉ H1) by (unfold H1; intros A; apply elem_of_union in A as [A|A]; [apply (hi_heads _ _ _ V) in A; tauto|set_solver]).
    unfold σ'. rewrite forget_all_lookup. rewrite decide_False by exact N3. rewrite E1, decide_False by exact N2. exact Es.
Qed.

(** ** Cuts *)
Lemma cut_spec (H Q : gset digest) (l : list digest) :
  let Q' := Q ∪ list_to_set l in
  (forall x, x ∈ H <-> x ∈ Q' /\ ((forall y, ~ E x y) \/ exists y, E x y /\ y ∉ Q')) ->
  (forall x, x ∈ l <-> touches E x /\ x ∉ Q /\ forall p, E p x -> p ∈ Q) ->
  (forall x, x ∈ Q -> touches E x) ->
  (forall x p, x ∈ Q -> E p x -> p ∈ Q) ->
  (forall x, touches E x -> x ∉ Q -> exists s : gset digest, forall p, p ∈ s <-> E p x /\ p ∉ Q) ->
  (forall x, x ∈ Q' -> exists s : gset digest, forall y, y ∈ s <-> E x y) ->
  l <> [] -> NoDup l -> size H <= 1 ->
  exists e, l = [e] /\ (forall x, x ∈ Q -> tc E x e) /\ (forall y, touches E y -> y ∉ Q' -> tc E e y).
Proof.
  cbv zeta. set (Q' := Q ∪ list_to_set l). intros HH L TQ C DP DS Ne Nd Sz.
  assert (LH : forall x, x ∈ l -> x ∈ H).
  { intros x Hx. apply HH. split; [unfold Q'; set_solver|]. apply L in Hx as Hl. destruct Hl as (T & N & F).
    destruct (DS x) as (s & Hs); [unfold Q'; set_solver|]. destruct (decide (s = ∅)) as [->|Z].
    - left. intros y Exy. apply Hs in Exy. set_solver.
    - right. apply set_choose_L in Z as [y Hy]. apply Hs in Hy. exists y. split; [exact Hy|]. unfold Q'.
      rewrite elem_of_union, elem_of_list_to_set. intros [A|A]; [exact (N (C y x A Hy))|]. apply L in A as (_ & _ & Fy). exact (N (Fy x Hy)). }
  assert (Un : forall x y, x ∈ H -> y ∈ H -> x = y).
  { intros x y Hx Hy. destruct (decide (x = y)) as [|Nxy]; [assumption|].
    assert (size ({[ x ]} ∪ {[ y ]} : gset digest) <= size H) by (apply subseteq_size; set_solver).
    rewrite size_union, !size_singleton in H0 by set_solver. lia. }
  destruct l as [|e l']; [contradiction|]. destruct l' as [|e' l'].
  2: { exfalso. assert (e = e') by (apply Un; apply LH; [left|right; left]). subst. apply NoDup_cons in Nd as [Nd _]. apply Nd. left. }
  exists e. split; [reflexivity|].
  assert (He : e ∈ [e]) by left. pose proof (proj1 (L e) He) as (Te & NeQ & Fe).
  split.
  - (* everything popped earlier precedes e: follow successors, which stay inside *)
    assert (B : forall n (X : gset digest) x, size X <= n -> (forall z, z ∈ Q -> rank x <= rank z -> z ∈ X) -> x ∈ Q -> tc E x e).
    { induction n as [|n IH]; intros X x SX CX Hx.
      - assert (x ∈ X) by (apply CX; [exact Hx|lia]). apply Nat.le_0_r, size_empty_inv in SX. set_solver.
      - destruct (DS x) as (s & Hs); [unfold Q'; set_solver|].
        assert (NH : x ∉ H) by (intros A; assert (x = e) by (apply Un; [exact A|apply LH; left]); subst; auto).
        destruct (decide (s = ∅)) as [->|Z].
        { exfalso. apply NH, HH. split; [unfold Q'; set_solver|]. left. intros y Exy. apply Hs in Exy. set_solver. }
        apply set_choose_L in Z as [y Hy]. apply Hs in Hy.
        destruct (decide (y ∈ Q')) as [Hy'|Hy'].
        2: { exfalso. apply NH, HH. split; [unfold Q'; set_solver|]. right. eauto. }
        unfold Q' in Hy'. apply elem_of_union in Hy' as [Hy'|Hy'].
        + eapply tc_l; [exact Hy|]. apply (IH (X ∖ {[ x ]})); [| |exact Hy'].
          * assert (x ∈ X) by (apply CX; [exact Hx|lia]).
            assert (Q0 : X ∖ {[ x ]} ⊂ X) by set_solver. apply subset_size in Q0. lia.
          * intros z Hz Rz. pose proof (Hrank _ _ Hy). apply elem_of_difference. split; [apply CX; [exact Hz|lia]|].
            rewrite elem_of_singleton. intros ->. lia.
        + apply elem_of_list_to_set, elem_of_list_singleton in Hy' as ->. apply tc_once. exact Hy. }
    intros x Hx. eapply (B (size Q) Q x); [lia|auto|exact Hx].
  - intros y. remember (rank y) as n eqn:Hn. revert y Hn. induction (lt_wf n) as [n _ IH]. intros y -> Ty Ny.
    assert (NyQ : y ∉ Q) by (unfold Q' in Ny; set_solver).
    destruct (DP y Ty NyQ) as (s & Hs). destruct (decide (s = ∅)) as [->|Z].
    + exfalso. apply Ny. unfold Q'. apply elem_of_union. right. apply elem_of_list_to_set, L. split; [exact Ty|]. split; [exact NyQ|].
      intros p Hp. destruct (decide (p ∈ Q)) as [A|A]; [exact A|]. assert (p ∈ (∅ : gset digest)) by (apply Hs; auto). set_solver.
    + apply set_choose_L in Z as [p Hp]. apply Hs in Hp as [Hp NpQ]. destruct (decide (p = e)) as [->|Npe]; [apply tc_once; exact Hp|].
      eapply tc_r; [|exact Hp]. apply (IH (rank p)); auto; [exists y; auto|]. unfold Q'. set_solver.
Qed.
End epochs.

(** ** Lists of epochs *)
Lemma get_ops_spec g l : GInv g -> (forall x, x ∈ l -> is_Some (g_ops g !! x)) ->
  exists os, get_ops g l = Ok os /\ map so_hash os = l /\ forall o, o ∈ os -> g_ops g !! so_hash o = Some o.
Proof.
  intros V. induction l as [|h l IH]; intros K; cbn [get_ops].
  - exists []. split; [reflexivity|]. split; [reflexivity|]. intros o Ho. apply elem_of_nil in Ho as [].
  - destruct (K h) as [o Eo]; [left|]. rewrite Eo. cbn [ok_or rbind].
    destruct IH as (os & E & M & A); [intros x Hx; apply K; right; exact Hx|]. rewrite E. cbn [rbind].
    exists (o :: os). split; [reflexivity|]. pose proof (gi_hash _ V _ _ Eo) as Hh. split; [cbn; rewrite M, Hh; reflexivity|].
    intros o' Ho. apply elem_of_cons in Ho as [->|Ho]; [rewrite Hh; exact Eo|auto].
Qed.

Definition ordered {A} (R : A -> A -> Prop) (l : list (list A)) : Prop :=
  forall i j e e' o o', i < j -> l !! i = Some e -> l !! j = Some e' -> o ∈ e -> o' ∈ e' -> R o o'.

Lemma ordered_snoc {A} (R : A -> A -> Prop) l e :
  ordered R l -> (forall o o', o ∈ concat l -> o' ∈ e -> R o o') -> ordered R (l ++ [e]).
Proof.
  intros H K i j e1 e2 o o' Hij E1 E2 Ho Ho'. apply lookup_app_Some in E2 as [E2|[L2 E2]].
  - rewrite lookup_app_l in E1 by (apply lookup_lt_Some in E2; lia). eapply H; eauto.
  - assert (j - length l = 0) by (apply lookup_lt_Some in E2; cbn in E2; lia). rewrite H0 in E2. injection E2 as <-.
    rewrite lookup_app_l in E1 by lia. apply K; [|exact Ho']. rewrite elem_of_list_In, in_concat. exists e1.
    rewrite <- !elem_of_list_In. split; [eapply elem_of_list_lookup_2; eauto|exact Ho].
Qed.

Lemma push_epoch_concat {A} (e : list A) acc : concat (push_epoch e acc) = concat acc ++ e.
Proof. destruct e; cbn; [rewrite app_nil_r; reflexivity|]. rewrite concat_app. cbn. rewrite app_nil_r. reflexivity. Qed.

Lemma push_epoch_ordered {A} (R : A -> A -> Prop) acc e :
  ordered R acc -> (forall o o', o ∈ concat acc -> o' ∈ e -> R o o') -> ordered R (push_epoch e acc).
Proof. intros H K. destruct e as [|a e]; [exact H|]. apply ordered_snoc; assumption. Qed.

Lemma push_epoch_nonempty {A} (e : list A) acc : (forall x, x ∈ acc -> x <> []) -> forall x, x ∈ push_epoch e acc -> x <> [].
Proof.
  intros H x. destruct e as [|a e]; [apply H|]. cbn. rewrite elem_of_app, elem_of_list_singleton. intros [Q| ->]; [apply H, Q|discriminate].
Qed.

Lemma sorted_elements_in s x : x ∈ sorted_elements s <-> x ∈ s.
Proof. unfold sorted_elements. rewrite (merge_sort_Permutation le). apply elem_of_elements. Qed.
Lemma sorted_elements_nodup s : NoDup (sorted_elements s).
Proof. unfold sorted_elements. rewrite (merge_sort_Permutation le). apply NoDup_elements. Qed.

(** What the loop has produced when the operations in [Q] have been popped. *)
Record oinv (g : graph) (E : digest -> digest -> Prop) (Q : gset digest) (next : list signed_op) (acc : list (list signed_op)) : Prop := {
  oi_in x : x ∈ map so_hash (concat acc ++ next) <-> x ∈ Q;
  oi_nodup : NoDup (map so_hash (concat acc ++ next));
  oi_ops o : o ∈ concat acc ++ next -> g_ops g !! so_hash o = Some o;
  oi_causal i o p : (concat acc ++ next) !! i = Some o -> E p (so_hash o) ->
    exists j o', j < i /\ (concat acc ++ next) !! j = Some o' /\ so_hash o' = p;
  oi_nonempty e : e ∈ acc -> e <> [];
  oi_ordered : ordered (fun o o' => tc E (so_hash o) (so_hash o')) acc;
  oi_cut o y : o ∈ concat acc -> touches E y -> y ∉ map so_hash (concat acc) -> tc E (so_hash o) y
}.

Lemma causal_snoc (E : digest -> digest -> Prop) (l os : list signed_op) (Q : gset digest) :
  (forall i o p, l !! i = Some o -> E p (so_hash o) -> exists j o', j < i /\ l !! j = Some o' /\ so_hash o' = p) ->
  (forall x, x ∈ map so_hash l <-> x ∈ Q) ->
  (forall o p, o ∈ os -> E p (so_hash o) -> p ∈ Q) ->
  forall i o p, (l ++ os) !! i = Some o -> E p (so_hash o) -> exists j o', j < i /\ (l ++ os) !! j = Some o' /\ so_hash o' = p.
Proof.
  intros C I K i o p Hi Hp. apply lookup_app_Some in Hi as [Hi|[Li Hi]].
  - destruct (C i o p Hi Hp) as (j & o' & Hj & Ej & Hh). exists j, o'. split; [exact Hj|]. split; [|exact Hh].
    apply lookup_app_l_Some. exact Ej.
  - apply elem_of_list_lookup_2 in Hi. specialize (K o p Hi Hp). apply I, elem_of_list_fmap in K as (o' & -> & Ho').
    apply elem_of_list_lookup in Ho' as [j Ej]. exists j, o'. pose proof (lookup_lt_Some _ _ _ Ej). split; [lia|].
    split; [apply lookup_app_l_Some; exact Ej|reflexivity].
Qed.

Lemma epoch_loop_spec g (E : digest -> digest -> Prop) rank : GInv g -> (forall x y, E x y -> rank x < rank y) ->
  (forall x, touches E x -> is_Some (g_ops g !! x)) ->
  (forall x, touches E x -> exists s : gset digest, forall y, y ∈ s <-> E x y) ->
  forall fuel ts succ H next acc Q,
  tsq E ts Q -> hinv E H succ Q -> oinv g E Q next acc ->
  (forall x, x ∈ Q -> touches E x) -> (forall x p, x ∈ Q -> E p x -> p ∈ Q) ->
  size (ts_deps ts) <= fuel ->
  exists epochs Q', epoch_loop fuel g ts succ H next acc = Ok epochs /\ oinv g E Q' [] epochs /\
    forall x, touches E x <-> x ∈ Q'.
Proof.
  intros V Hrank KE SE. induction fuel as [|fuel IH]; intros ts succ H next acc Q T Hi O TQ C F.
  all: assert (Fin : ts_deps ts = ∅ -> exists epochs Q', Ok (push_epoch next acc) = Ok epochs /\ oinv g E Q' [] epochs /\ forall x, touches E x <-> x ∈ Q').
  1,3: intros Z; exists (push_epoch next acc), Q; split; [reflexivity|]; split.
  1,3: constructor; rewrite ?push_epoch_concat, ?app_nil_r; try apply O.
  1,4: apply push_epoch_nonempty; apply O.
  1,3: apply push_epoch_ordered; [apply O|]; intros o o' Ho Ho'; apply (oi_cut _ _ _ _ _ O); [exact Ho| |];
       [apply TQ, (oi_in _ _ _ _ _ O), elem_of_list_fmap; exists o'; split; [reflexivity|apply elem_of_app; auto]|];
       intros Q'; pose proof (oi_nodup _ _ _ _ _ O) as Nd; rewrite map_app in Nd; apply NoDup_app in Nd as (_ & Nd & _);
       apply (Nd _ Q'), elem_of_list_fmap; eauto.
  1,2: intros o y _ Ty Ny; exfalso; apply Ny, (oi_in _ _ _ _ _ O).
  1,2: destruct (decide (y ∈ Q)) as [Hy|Hy]; [exact Hy|]; exfalso; destruct T as [D _];
       destruct (holds_lookup _ _ _ y D (conj Ty Hy)) as (s & Es & _); rewrite Z in Es; discriminate.
  1,2: intros x; split; [|apply TQ]; intros Tx; destruct (decide (x ∈ Q)) as [Hy|Hy]; [exact Hy|]; exfalso; destruct T as [D _];
       destruct (holds_lookup _ _ _ x D (conj Tx Hy)) as (s & Es & _); rewrite Z in Es; discriminate.
  - cbn [epoch_loop]. unfold ts_is_empty. destruct (bool_decide _) eqn:B; [apply Fin; apply bool_decide_eq_true in B; exact B|].
    apply bool_decide_eq_false in B. exfalso. apply B, map_size_empty_inv. lia.
  - cbn [epoch_loop]. unfold ts_is_empty. destruct (bool_decide _) eqn:B; [apply Fin; apply bool_decide_eq_true in B; exact B|].
    apply bool_decide_eq_false in B. clear Fin. unfold pop_all.
    set (l := sorted_elements (ready ts)).
    assert (L : forall x, x ∈ l <-> touches E x /\ x ∉ Q /\ forall p, E p x -> p ∈ Q).
    { intros x. unfold l. rewrite sorted_elements_in. apply (ready_spec E rank Hrank), T. }
    assert (Nl : NoDup l) by apply sorted_elements_nodup.
    assert (Ne : l <> []).
    { apply map_choose in B as (x & s & Es). destruct T as [D R]. destruct (D x) as [A _]. destruct (A s Es) as [[Tx Nx] _].
      destruct (ready_nonempty E rank Hrank ts Q x (conj D R) Tx Nx) as [y Hy]. apply sorted_elements_in in Hy. fold l in Hy.
      intros Z. rewrite Z in Hy. apply elem_of_nil in Hy as []. }
    pose proof (pop_list_tsq E rank Hrank l ts Q T Nl (fun x Hx => match proj1 (L x) Hx with conj A (conj B _) => conj A B end)) as T'.
    set (ts' := foldl pop_one ts l) in *. set (Q' := Q ∪ list_to_set l) in *.
    destruct (enter_heads_spec l H succ) as (succ1 & E1 & S1).
    { intros x Hx. apply L in Hx as (Tx & Nx & _). destruct (hi_rest _ _ _ _ Hi x Tx Nx) as (s & Es & _). eauto. }
    rewrite E1. cbn [rbind].
    pose proof (hinv_step E rank Hrank H succ Q l succ1 Hi TQ L C S1) as Hi'. cbv zeta in Hi'. fold Q' in Hi'.
    set (succ' := foldl (forget (H ∪ list_to_set l)) succ1 l) in *. set (H' := retain_heads (H ∪ list_to_set l) succ') in *.
    destruct (get_ops_spec g l V) as (os & Eo & Mo & Ao).
    { intros x Hx. apply L in Hx as (Tx & _). apply KE, Tx. }
    rewrite Eo. cbn [rbind].
    assert (TQ' : forall x, x ∈ Q' -> touches E x).
    { intros x Hx. unfold Q' in Hx. apply elem_of_union in Hx as [Hx|Hx]; [auto|]. apply elem_of_list_to_set, L in Hx. tauto. }
    assert (C' : forall x p, x ∈ Q' -> E p x -> p ∈ Q').
    { intros x p Hx Hp. unfold Q' in *. apply elem_of_union in Hx as [Hx|Hx]; [apply elem_of_union; left; eauto|].
      apply elem_of_list_to_set, L in Hx as (_ & _ & Fx). apply elem_of_union; left; eauto. }
    assert (Sz : size (ts_deps ts') <= fuel).
    { assert (dom (ts_deps ts') ⊂ dom (ts_deps ts)).
      { destruct T as [D R]. destruct T' as [D' R']. split.
        - intros x Hx. apply elem_of_dom in Hx as [s Es]. destruct (D' x) as [A _]. destruct (A s Es) as [[Tx Nx] _].
          apply elem_of_dom. destruct (D x) as [_ B']. apply B'. split; [exact Tx|]. unfold Q' in Nx. set_solver.
        - intros Sub. destruct l as [|x l'] eqn:El; [contradiction|]. assert (Hx : x ∈ x :: l') by left.
          pose proof (proj1 (L x) Hx) as (Tx & Nx & _). assert (Dx : x ∈ dom (ts_deps ts)) by (apply elem_of_dom; destruct (D x) as [_ B']; auto).
          apply Sub, elem_of_dom in Dx as [s Es]. destruct (D' x) as [A _]. destruct (A s Es) as [[_ Nx'] _]. apply Nx'. unfold Q'. set_solver. }
      apply subset_size in H0. rewrite !size_dom in H0. lia. }
    assert (Oin : forall x, x ∈ map so_hash ((concat acc ++ next) ++ os) <-> x ∈ Q').
    { intros x. rewrite map_app, elem_of_app, (oi_in _ _ _ _ _ O), Mo. unfold Q'. rewrite elem_of_union, elem_of_list_to_set. tauto. }
    assert (Ond : NoDup (map so_hash ((concat acc ++ next) ++ os))).
    { rewrite map_app, Mo. apply NoDup_app. split; [apply O|]. split; [|exact Nl]. intros x Hx Hl. apply (oi_in _ _ _ _ _ O) in Hx.
      apply L in Hl. tauto. }
    assert (Oops : forall o, o ∈ (concat acc ++ next) ++ os -> g_ops g !! so_hash o = Some o).
    { intros o Ho. apply elem_of_app in Ho as [Ho|Ho]; [apply (oi_ops _ _ _ _ _ O), Ho|apply Ao, Ho]. }
    assert (Lo : forall o, o ∈ os -> so_hash o ∈ l) by (intros o Ho; rewrite <- Mo; apply elem_of_list_fmap; eauto).
    assert (Ocs := causal_snoc E (concat acc ++ next) os Q (oi_causal _ _ _ _ _ O) (oi_in _ _ _ _ _ O)).
    specialize (Ocs ltac:(intros o p Ho Hp; apply Lo, L in Ho; destruct Ho as (_ & _ & Fo); auto)).
    assert (Cn : forall o o', o ∈ concat acc -> o' ∈ next -> tc E (so_hash o) (so_hash o')).
    { intros o o' Ho Ho'. apply (oi_cut _ _ _ _ _ O); [exact Ho| |].
      - apply TQ, (oi_in _ _ _ _ _ O), elem_of_list_fmap. exists o'. split; [reflexivity|]. apply elem_of_app; auto.
      - intros Q0. pose proof (oi_nodup _ _ _ _ _ O) as Nd. rewrite map_app in Nd. apply NoDup_app in Nd as (_ & Nd & _).
        apply (Nd _ Q0), elem_of_list_fmap. eauto. }
    destruct (size H' <=? 1) eqn:Sh.
    + apply Nat.leb_le in Sh.
      destruct (cut_spec E rank Hrank H' Q l) as (e & El & Ce & Cy); fold Q'; auto.
      * apply Hi'.
      * intros x Tx Nx. destruct T as [D _]. destruct (holds_lookup _ _ _ x D (conj Tx Nx)) as (s & _ & Hs). eauto.
      * eapply IH; [exact T'|exact Hi'| |exact TQ'|exact C'|exact Sz].
        assert (CC : concat (push_epoch os (push_epoch next acc)) = (concat acc ++ next) ++ os) by (rewrite !push_epoch_concat; reflexivity).
        constructor; rewrite ?CC, ?app_nil_r; auto.
        -- apply push_epoch_nonempty, push_epoch_nonempty, O.
        -- apply push_epoch_ordered; [apply push_epoch_ordered; [apply O|exact Cn]|]. intros o o' Ho Ho'. rewrite push_epoch_concat in Ho.
           apply Lo in Ho'. rewrite El in Ho'. apply elem_of_list_singleton in Ho'. rewrite Ho'. apply Ce, (oi_in _ _ _ _ _ O), elem_of_list_fmap. eauto.
        -- intros o y Ho Ty Ny. rewrite Oin in Ny. apply elem_of_app in Ho as [Ho|Ho].
           ++ eapply tc_transitive; [apply Ce, (oi_in _ _ _ _ _ O), elem_of_list_fmap; eauto|]. apply Cy; assumption.
           ++ apply Lo in Ho. rewrite El in Ho. apply elem_of_list_singleton in Ho. rewrite Ho. apply Cy; assumption.
    + eapply IH; [exact T'|exact Hi'| |exact TQ'|exact C'|exact Sz].
      constructor; rewrite ?app_assoc; auto; apply O.
Qed.

(** ** The replay order *)
Lemma holds_unique m m' K R : holds m K R -> holds m' K R -> m = m'.
Proof.
  intros H H'. apply map_eq. intros x. destruct (H x) as [A B], (H' x) as [A' B'].
  destruct (m !! x) as [s|] eqn:E, (m' !! x) as [s'|] eqn:E'; [| | |reflexivity].
  - f_equal. destruct (A s eq_refl) as [_ D], (A' s' eq_refl) as [_ D']. apply set_eq. intros y. rewrite D, D'. reflexivity.
  - destruct (A s eq_refl) as [Kx _]. destruct (B' Kx); discriminate.
  - destruct (A' s' eq_refl) as [Kx _]. destruct (B Kx); discriminate.
Qed.

Lemma tc_edges_before g D x y : tc (edges_of g D) x y -> before g x y.
Proof. intros H. induction H as [x y [H _]|x y z [H _] _ IH]; [apply tc_once, H|eapply tc_l; eauto]. Qed.

(** The single root precedes everything. *)
Lemma root_exists g x : GInv g -> is_Some (g_ops g !! x) ->
  exists r o, g_ops g !! r = Some o /\ op_preds (so_op o) = ∅ /\ rtc (pred_of g) r x.
Proof.
  intros V. destruct (gi_rank _ V) as [rank Hr]. remember (rank x) as n eqn:Hn. revert x Hn.
  induction (lt_wf n) as [n _ IH]. intros x -> [o Eo]. destruct (decide (op_preds (so_op o) = ∅)) as [Z|Z].
  - exists x, o. split; [exact Eo|]. split; [exact Z|constructor].
  - apply set_choose_L in Z as [p Hp]. assert (Pp : pred_of g p x) by (exists o; auto).
    destruct (IH (rank p) (Hr _ _ Pp) p eq_refl (gi_closed _ V _ _ Pp)) as (r & o' & Er & Zr & Rr).
    exists r, o'. split; [exact Er|]. split; [exact Zr|]. eapply rtc_r; eauto.
Qed.

Lemma ancestry_pred g hs x p : in_ancestry g hs x -> pred_of g p x -> in_ancestry g hs p.
Proof. intros (k & Hk & R) P. exists k. split; [exact Hk|]. eapply rtc_l; eauto. Qed.
Lemma ancestry_rtc g hs x p : in_ancestry g hs x -> rtc (pred_of g) p x -> in_ancestry g hs p.
Proof. intros (k & Hk & R) P. exists k. split; [exact Hk|]. etrans; eauto. Qed.

Lemma ancestry_known g hs x : GInv g -> (forall x, x ∈ hs -> is_Some (g_ops g !! x)) -> in_ancestry g hs x -> is_Some (g_ops g !! x).
Proof. intros V K (k & Hk & R). destruct R as [x|x y z Rxy _]; [apply K, Hk|]. eapply (gi_closed _ V); eauto. Qed.

Lemma topsort_for_heads_spec g hs : GInv g -> single_root g -> NoDup hs -> hs <> [] ->
  (forall x, x ∈ hs -> is_Some (g_ops g !! x)) ->
  exists epochs, topsort_for_heads g hs = Ok epochs /\ good_replay g hs epochs.
Proof.
  intros V SR N Nhs K. unfold topsort_for_heads.
  destruct (walk_spec g hs V N K) as (w & Ew & Sw & Tw & Cw). rewrite Ew. cbn [rbind].
  set (E := edges_of g (w_seen w)) in *.
  assert (TA : forall x, touches E x -> in_ancestry g hs x).
  { intros x (y & [[P S]|[P S]]); apply Sw in S; [|exact S]. eapply ancestry_pred; eauto. }
  assert (Root : forall x r o, touches E x -> g_ops g !! r = Some o -> op_preds (so_op o) = ∅ -> touches E r).
  { intros x r o (y & Ty) Er Zr. assert (exists a b, E a b) as (a & b & Eab) by (destruct Ty; eauto).
    assert (Kb : is_Some (g_ops g !! b)) by (apply (ancestry_known g hs b V K), TA; exists a; auto).
    destruct (root_exists g b V Kb) as (r' & o' & Er' & Zr' & R). assert (r' = r) by (eapply SR; eauto). subst r'.
    assert (Ab : in_ancestry g hs b) by (apply TA; exists a; auto).
    destruct R as [r0|r0 c b Rc Rb].
    - exfalso. destruct Eab as [(o'' & Eo & Ho) _]. rewrite Er in Eo. injection Eo as <-. rewrite Zr in Ho. set_solver.
    - exists c. left. split; [exact Rc|]. apply Sw. eapply ancestry_rtc; eauto. }
  unfold ts_is_empty. destruct (bool_decide _) eqn:B.
  - apply bool_decide_eq_true in B.
    assert (NE : forall x, ~ touches E x).
    { intros x Tx. destruct Tw as [D _]. destruct (holds_lookup _ _ _ x D Tx) as (s & Es & _). rewrite B in Es. discriminate. }
    assert (NP : forall x o, in_ancestry g hs x -> g_ops g !! x = Some o -> op_preds (so_op o) = ∅).
    { intros x o Ax Eo. apply set_eq. intros p. split; [|set_solver]. intros Hp. exfalso. apply (NE x). exists p. right.
      split; [exists o; auto|]. apply Sw, Ax. }
    destruct hs as [|h hs']; [contradiction|].
    assert (hs' = []) as ->.
    { destruct hs' as [|h' hs']; [reflexivity|]. exfalso.
      destruct (K h) as [o Eo]; [left|]. destruct (K h') as [o' Eo']; [right; left|].
      assert (h = h'); [|subst; apply NoDup_cons in N as [N _]; apply N; left].
      eapply SR; [exact Eo|exact Eo'|eapply NP; [|exact Eo]|eapply NP; [|exact Eo']]; apply in_ancestry_start; [left|right; left]. }
    destruct (K h) as [o Eo]; [left|]. cbn [get_ops]. rewrite Eo. cbn [ok_or rbind]. exists [[o]]. split; [reflexivity|].
    pose proof (gi_hash _ V _ _ Eo) as Hh.
    assert (OA : forall x, in_ancestry g [h] x -> x = h).
    { intros x (k & Hk & R). apply elem_of_list_singleton in Hk as ->. apply rtc_inv_r in R as [<-|(y & R & P)]; [reflexivity|]. exfalso.
      destruct P as (o' & Eo' & Hp). rewrite Eo in Eo'. injection Eo' as <-. rewrite (NP h o) in Hp; [set_solver|apply in_ancestry_start; left|exact Eo]. }
    constructor; cbn.
    + intros o'. rewrite elem_of_list_singleton. split.
      * intros ->. rewrite Hh. split; [exact Eo|apply in_ancestry_start; left].
      * intros [E1 A]. apply OA in A. rewrite A, Eo in E1. congruence.
    + apply NoDup_singleton.
    + intros i o' p Hi Hp. exfalso. destruct i; [|discriminate]. injection Hi as <-.
      rewrite (NP h o) in Hp; [set_solver|apply in_ancestry_start; left|exact Eo].
    + intros e He. apply elem_of_list_singleton in He as ->. discriminate.
    + intros i j e e' o1 o2 Hij E1 E2. destruct j as [|[|j]]; [lia|discriminate|discriminate].
  - apply bool_decide_eq_false in B.
    assert (AT : forall x, in_ancestry g hs x -> touches E x).
    { intros x Ax. destruct (ancestry_known g hs x V K Ax) as [o Eo]. destruct (decide (op_preds (so_op o) = ∅)) as [Z|Z].
      - apply map_choose in B as (z & s & Ez). destruct Tw as [D _]. destruct (D z) as [A _]. destruct (A s Ez) as [Tz _]. eapply Root; eauto.
      - apply set_choose_L in Z as [p Hp]. exists p. right. split; [exists o; auto|]. apply Sw, Ax. }
    destruct (gi_rank _ V) as [rank Hr].
    destruct (epoch_loop_spec g E rank V) with (fuel := size (ts_deps (w_ts w))) (ts := w_ts w) (succ := w_succ w) (H := ∅ : gset digest)
      (next := @nil signed_op) (acc := @nil (list signed_op)) (Q := ∅ : gset digest) as (epochs & Q' & Ee & O & TQ).
    + intros x y [P _]. apply Hr, P.
    + intros x Tx. apply (ancestry_known g hs x V K), TA, Tx.
    + intros x Tx. destruct Tw as [_ R]. destruct (holds_lookup _ _ _ x R Tx) as (s & _ & Hs). eauto.
    + split.
      * eapply holds_ext; [apply Tw|..]; intros; set_solver.
      * intros x Tx _. destruct Tw as [_ R]. exact (holds_lookup _ _ _ x R Tx).
    + constructor.
      * intros x. set_solver.
      * set_solver.
      * intros x Tx _. apply (holds_lookup _ _ _ x Cw). apply TA in Tx as Ax. destruct Ax as (k & Hk & R). destruct R as [x|x y z P R]; [left; exact Hk|].
        right. exists y. split; [exact P|]. apply Sw. exists z. auto.
    + constructor; cbn.
      * intros x. rewrite elem_of_nil. set_solver.
      * constructor.
      * intros o Ho. apply elem_of_nil in Ho as [].
      * intros i o p Hi. discriminate.
      * intros e He. apply elem_of_nil in He as [].
      * intros i j e e' o o' _ Hi. discriminate.
      * intros o y Ho. apply elem_of_nil in Ho as [].
    + set_solver.
    + set_solver.
    + reflexivity.
    + exists epochs. split; [exact Ee|]. pose proof (oi_in _ _ _ _ _ O) as Oi. pose proof (oi_ops _ _ _ _ _ O) as Oo.
      pose proof (oi_nodup _ _ _ _ _ O) as On. pose proof (oi_causal _ _ _ _ _ O) as Oc. rewrite ?app_nil_r in *.
      constructor.
      * intros o. split.
        -- intros Ho. split; [auto|]. apply TA, TQ, Oi, elem_of_list_fmap. eauto.
        -- intros [Eo Ao]. apply AT, TQ, Oi, elem_of_list_fmap in Ao as (o' & Hh & Ho'). rewrite Hh in Eo. rewrite Oo in Eo by exact Ho'.
           injection Eo as <-. exact Ho'.
      * eapply NoDup_fmap_1. exact On.
      * intros i o p Hi Hp. assert (Ho : o ∈ concat epochs) by (eapply elem_of_list_lookup_2; eauto).
        assert (g_ops g !! so_hash o = Some o) as Eo by auto.
        destruct (Oc i o p) as (j & o' & Hj & Ej & Hh); [exact Hi| |exists j, o'; auto].
        split; [exists o; auto|]. apply Sw, TA, TQ, Oi, elem_of_list_fmap. eauto.
      * apply O.
      * intros i j e e' o o' Hij E1 E2 Ho Ho'. eapply tc_edges_before. eapply (oi_ordered _ _ _ _ _ O); eauto.
Qed.

Lemma topsort_for_heads_perm g hs hs' : GInv g -> single_root g -> NoDup hs -> hs <> [] ->
  (forall x, x ∈ hs -> is_Some (g_ops g !! x)) -> Permutation hs hs' ->
  topsort_for_heads g hs = topsort_for_heads g hs'.
Proof.
  intros V SR N Nhs K P.
  assert (N' : NoDup hs') by (rewrite <- P; exact N).
  assert (K' : forall x, x ∈ hs' -> is_Some (g_ops g !! x)) by (intros x Hx; apply K; rewrite P; exact Hx).
  destruct (walk_spec g hs V N K) as (w & Ew & Sw & Tw & Cw). destruct (walk_spec g hs' V N' K') as (w' & Ew' & Sw' & Tw' & Cw').
  assert (ES : forall x, x ∈ w_seen w <-> x ∈ w_seen w').
  { intros x. rewrite Sw, Sw'. unfold in_ancestry. split; intros (k & Hk & R); exists k; (split; [|exact R]); [rewrite <- P|rewrite P]; exact Hk. }
  assert (EE : forall x y, edges_of g (w_seen w) x y <-> edges_of g (w_seen w') x y) by (intros; unfold edges_of; rewrite ES; tauto).
  apply (ts_holds_ext _ _ _ EE) in Tw. apply (succ_holds_ext _ _ _ _ EE) in Cw.
  assert (Et : w_ts w = w_ts w').
  { destruct (w_ts w) as [d r], (w_ts w') as [d' r']. destruct Tw as [A A'], Tw' as [C C']. cbn in *. f_equal; eapply holds_unique; eauto. }
  assert (Ec : w_succ w = w_succ w').
  { eapply holds_unique; [exact Cw|]. eapply holds_ext; [exact Cw'| |intros; reflexivity]. intros x. cbn. rewrite P. reflexivity. }
  destruct (decide (length hs <= 1)) as [L|L].
  - destruct hs as [|h [|h2 hs0]]; [contradiction| |cbn in L; lia]. apply Permutation_singleton_l in P as ->. reflexivity.
  - assert (NZ : ts_is_empty (w_ts w) = false).
    { unfold ts_is_empty. apply bool_decide_eq_false. intros Z.
      assert (NP : forall x o, x ∈ hs -> g_ops g !! x = Some o -> op_preds (so_op o) = ∅).
      { intros x o Hx Eo. apply set_eq. intros p. split; [|set_solver]. intros Hp. exfalso.
        destruct Tw as [D _]. destruct (holds_lookup _ _ _ x D) as (s & Es & _).
        { exists p. right. apply EE. split; [exists o; auto|]. apply Sw, in_ancestry_start, Hx. }
        rewrite Z in Es. discriminate. }
      destruct hs as [|h [|h2 hs0]]; cbn in L; [lia|lia|].
      destruct (K h) as [o Eo]; [left|]. destruct (K h2) as [o' Eo']; [right; left|].
      assert (h = h2); [|subst; apply NoDup_cons in N as [N _]; apply N; left].
      eapply SR; [exact Eo|exact Eo'|eapply NP; [|exact Eo]|eapply NP; [|exact Eo']]; [left|right; left]. }
    unfold topsort_for_heads. rewrite Ew, Ew'. cbn [rbind]. rewrite <- Et, <- Ec, NZ. reflexivity.
Qed.
