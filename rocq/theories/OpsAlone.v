(** An operation that is ordered with every other one is an epoch of its own. *)
From Coq Require Import Arith Lia.
From stdpp Require Import base list gmap relations sorting.
From Verif Require Import ResModel KeysModel TreeModel OpsModel OpsSpec OpsInv OpsProofs OpsEpochs CgkaSpec.

Definition lone (Dm : digest -> Prop) (e : list signed_op) : Prop := forall o, o ∈ e -> Dm (so_hash o) -> e = [o].

Lemma push_epoch_lone Dm e acc : lone Dm e -> (forall x, x ∈ acc -> lone Dm x) -> forall x, x ∈ push_epoch e acc -> lone Dm x.
Proof. intros L A x. destruct e as [|a e]; [apply A|]. cbn [push_epoch]. rewrite elem_of_app, elem_of_list_singleton. intros [Q| ->]; auto. Qed.

Section alone.
Context (g : graph) (E : digest -> digest -> Prop) (rank : digest -> nat) (V : GInv g) (Hrank : forall x y, E x y -> rank x < rank y).
Context (KE : forall x, touches E x -> is_Some (g_ops g !! x)).
Context (Dm : digest -> Prop).
Context (Cmp : forall d x, Dm d -> touches E x -> x = d \/ tc E x d \/ tc E d x).
Context (Cut : forall d x y, Dm d -> tc E x d -> E x y -> y = d \/ tc E y d).

Lemma tc_rank x y : tc E x y -> rank x < rank y.
Proof. intros H. induction H as [x y H|x y z H _ IH]; apply Hrank in H; lia. Qed.
Lemma tc_first x y : tc E x y -> exists z, E x z.
Proof. intros H. destruct H; eauto. Qed.
Lemma closed_tc (Q : gset digest) x y : (forall x p, x ∈ Q -> E p x -> p ∈ Q) -> tc E x y -> y ∈ Q -> x ∈ Q.
Proof. intros C H. induction H as [x y H|x y z H _ IH]; intros Hy; [exact (C _ _ Hy H)|exact (C _ _ (IH Hy) H)]. Qed.
Lemma tc_last {A} (R : A -> A -> Prop) x y : tc R x y -> R x y \/ exists z, tc R x z /\ R z y.
Proof. intros H. induction H as [x y H|x y z H _ IH]; [auto|]. right. destruct IH as [IH|(w & B & IH)]; [exists y|exists w]; (split; [|exact IH]); [apply tc_once, H|eapply tc_l; eauto]. Qed.

Lemma epoch_loop_alone : forall fuel ts succ H next acc Q epochs,
  tsq E ts Q -> hinv E H succ Q ->
  (forall x, x ∈ Q -> touches E x) -> (forall x p, x ∈ Q -> E p x -> p ∈ Q) ->
  (forall e, e ∈ acc -> lone Dm e) -> (forall o, o ∈ next -> ~ Dm (so_hash o)) ->
  epoch_loop fuel g ts succ H next acc = Ok epochs -> forall e, e ∈ epochs -> lone Dm e.
Proof.
  assert (Ln : forall l, (forall o, o ∈ l -> ~ Dm (so_hash o)) -> lone Dm l) by (intros l N o Ho D; exfalso; exact (N o Ho D)).
  induction fuel as [|fuel IH]; intros ts succ H next acc Q epochs T Hi TQ C A N; cbn [epoch_loop]; destruct (ts_is_empty ts).
  1,3: intros Z; injection Z as <-; apply push_epoch_lone; auto.
  - discriminate.
  - unfold pop_all. set (l := sorted_elements (ready ts)).
    assert (L : forall x, x ∈ l <-> touches E x /\ x ∉ Q /\ forall p, E p x -> p ∈ Q).
    { intros x. unfold l. rewrite sorted_elements_in. apply (ready_spec E rank Hrank), T. }
    assert (Nl : NoDup l) by apply sorted_elements_nodup.
    pose proof (pop_list_tsq E rank Hrank l ts Q T Nl (fun x Hx => match proj1 (L x) Hx with conj A (conj B _) => conj A B end)) as T'.
    set (ts' := foldl pop_one ts l) in *. set (Q' := Q ∪ list_to_set l) in *.
    destruct (enter_heads_spec l H succ) as (succ1 & E1 & S1).
    { intros x Hx. apply L in Hx as (Tx & Nx & _). destruct (hi_rest _ _ _ _ Hi x Tx Nx) as (s & Es & _). eauto. }
    rewrite E1. cbn [rbind].
    pose proof (hinv_step E rank Hrank H succ Q l succ1 Hi TQ L C S1) as Hi'. cbv zeta in Hi'. fold Q' in Hi'.
    set (succ' := foldl (forget (H ∪ list_to_set l)) succ1 l) in *. set (H' := retain_heads (H ∪ list_to_set l) succ') in *.
    destruct (get_ops_spec g l V) as (os & Eo & Mo & Ao).
    { intros x Hx. apply L in Hx as (Tx & _). apply KE, Tx. }
    rewrite Eo. cbn [rbind].
    assert (TQ' : forall x, x ∈ Q' -> touches E x).
    { intros x Hx. unfold Q' in Hx. apply elem_of_union in Hx as [Hx|Hx]; [auto|]. apply elem_of_list_to_set, L in Hx. tauto. }
    assert (C' : forall x p, x ∈ Q' -> E p x -> p ∈ Q').
    { intros x p Hx Hp. unfold Q' in *. apply elem_of_union in Hx as [Hx|Hx]; [apply elem_of_union; left; eauto|].
      apply elem_of_list_to_set, L in Hx as (_ & _ & Fx). apply elem_of_union; left; eauto. }
    assert (Lo : forall o, o ∈ os -> so_hash o ∈ l) by (intros o Ho; rewrite <- Mo; apply elem_of_list_fmap; eauto).
    (* a dominating operation is popped alone, and is then the only head *)
    assert (K : forall d, Dm d -> d ∈ l -> l = [d] /\ size H' <= 1).
    { intros d Dd Hd. pose proof (proj1 (L d) Hd) as (Td & Nd & Fd).
      assert (NoB : forall x y, tc E x y -> x ∈ l -> y ∈ l -> False).
      { intros x y B Hx Hy. apply L in Hx as (_ & Nx & _). apply L in Hy as (_ & _ & Fy). apply Nx.
        apply tc_last in B. destruct B as [B|(z & B & B')]; [auto|]. eapply closed_tc; [exact C|exact B|auto]. }
      assert (One : forall x, x ∈ l -> x = d).
      { intros x Hx. destruct (Cmp d x Dd) as [Z|[Z|Z]]; [apply L, Hx|exact Z|exfalso; eauto|exfalso; eauto]. }
      split.
      - destruct l as [|a [|b l']] eqn:El; [inversion Hd|rewrite (One a) by left; reflexivity|]. exfalso.
        assert (a = b) as -> by (rewrite (One a), (One b); [reflexivity|right; left|left]). apply NoDup_cons in Nl as [Nl _]. apply Nl. left.
      - assert (Sub : H' ⊆ {[ d ]}); [|apply subseteq_size in Sub; rewrite size_singleton in Sub; exact Sub].
        intros x Hx. apply (hi_heads _ _ _ _ Hi') in Hx as [Hx Hs]. apply elem_of_singleton. unfold Q' in Hx.
        apply elem_of_union in Hx as [Hx|Hx]; [|apply elem_of_list_to_set in Hx; auto].
        assert (B : tc E x d).
        { destruct (Cmp d x Dd (TQ x Hx)) as [-> |[B|B]]; [contradiction|exact B|]. exfalso. apply Nd. eapply closed_tc; eauto. }
        exfalso. destruct Hs as [Hs|(y & Exy & Ny)]; [destruct (tc_first _ _ B) as [z Z]; exact (Hs z Z)|]. apply Ny.
        assert (Hd' : d ∈ Q') by (unfold Q'; apply elem_of_union; right; apply elem_of_list_to_set; exact Hd).
        destruct (Cut d x y Dd B Exy) as [-> |B']; [exact Hd'|]. eapply closed_tc; [exact C'|exact B'|exact Hd']. }
    assert (Los : lone Dm os).
    { intros o Ho D. destruct (K _ D (Lo o Ho)) as [El _]. rewrite El in Mo. destruct os as [|a [|b os]]; [discriminate|apply elem_of_list_singleton in Ho as ->; reflexivity|discriminate]. }
    destruct (size H' <=? 1) eqn:Sh; intros Z e He.
    + eapply IH; [exact T'|exact Hi'|exact TQ'|exact C'| | |exact Z|exact He].
      * apply push_epoch_lone; [exact Los|]. apply push_epoch_lone; [apply Ln, N|exact A].
      * intros o Ho. inversion Ho.
    + eapply IH; [exact T'|exact Hi'|exact TQ'|exact C'|exact A| |exact Z|exact He].
      intros o Ho. apply elem_of_app in Ho as [Ho|Ho]; [auto|]. intros D. destruct (K _ D (Lo o Ho)) as [_ Hs]. apply Nat.leb_gt in Sh. lia.
Qed.
End alone.

Lemma tc_edges g (D : gset digest) x y : (forall a b, b ∈ D -> pred_of g a b -> a ∈ D) -> before g x y -> y ∈ D -> tc (edges_of g D) x y /\ x ∈ D.
Proof.
  intros C B. induction B as [x y P|x y z P _ IH]; intros Hy.
  - split; [apply tc_once; split; assumption|eapply C; eauto].
  - destruct (IH Hy) as [T Hy']. split; [|eapply C; eauto]. eapply tc_l; [split; [exact P|exact Hy']|exact T].
Qed.

Lemma topsort_alone g hs es : GInv g -> unordered_preds g -> NoDup hs -> (forall x, x ∈ hs -> is_Some (g_ops g !! x)) ->
  topsort_for_heads g hs = Ok es -> forall d, (forall x, is_Some (g_ops g !! x) -> x = d \/ before g x d \/ before g d x) ->
  in_ancestry g hs d -> forall e o, e ∈ es -> o ∈ e -> so_hash o = d -> e = [o].
Proof.
  intros V U N K Et d Cm Ad e o He Ho <-. unfold topsort_for_heads in Et.
  destruct (walk_spec g hs V N K) as (w & Ew & Sw & Tw & Cw). rewrite Ew in Et. cbn [rbind] in Et.
  set (E := edges_of g (w_seen w)) in *.
  assert (TA : forall x, touches E x -> in_ancestry g hs x).
  { intros x (y & [[P S]|[P S]]); apply Sw in S; [|exact S]. eapply ancestry_pred; eauto. }
  assert (Cl : forall a b, b ∈ w_seen w -> pred_of g a b -> a ∈ w_seen w) by (intros a b Hb P; apply Sw; apply Sw in Hb; eapply ancestry_pred; eauto).
  destruct (ts_is_empty (w_ts w)) eqn:B.
  - unfold ts_is_empty in B. apply bool_decide_eq_true in B.
    assert (NE : forall x, ~ touches E x).
    { intros x Tx. destruct Tw as [D _]. destruct (holds_lookup _ _ _ x D Tx) as (s & Es & _). rewrite B in Es. discriminate. }
    assert (One : forall x, x ∈ hs -> x = so_hash o).
    { intros x Hx. assert (Hx' : x ∈ w_seen w) by (apply Sw, in_ancestry_start, Hx).
      destruct (Cm x (K x Hx)) as [Z|[Z|Z]]; [exact Z|exfalso..].
      - destruct (tc_edges g _ _ _ Cl Z) as [Z' _]; [apply Sw, Ad|]. destruct Z' as [a b Z'|a b c Z' _]; apply (NE a); exists b; left; exact Z'.
      - destruct (tc_edges g _ _ _ Cl Z Hx') as [Z' _]. destruct Z' as [a b Z'|a b c Z' _]; apply (NE a); exists b; left; exact Z'. }
    destruct hs as [|h hs]; [discriminate|]. assert (hs = []) as ->.
    { destruct hs as [|h' hs]; [reflexivity|]. exfalso. assert (h = h') as -> by (rewrite (One h), (One h'); [reflexivity|right; left|left]). apply NoDup_cons in N as [N _]. apply N. left. }
    cbn [get_ops] in Et. destruct (g_ops g !! h) as [oh|] eqn:Eh; cbn in Et; [|discriminate]. injection Et as <-.
    apply elem_of_list_singleton in He as ->. apply elem_of_list_singleton in Ho as ->. reflexivity.
  - destruct (gi_rank _ V) as [rank Hr].
    eapply (epoch_loop_alone g E rank V) with (Dm := fun x => x = so_hash o) (Q := ∅ : gset digest); [..|exact Et|exact He|exact Ho|reflexivity].
    + intros x y [P _]. apply Hr, P.
    + intros x Tx. apply (ancestry_known g hs x V K), TA, Tx.
    + intros d x -> Tx. assert (Kx : is_Some (g_ops g !! x)) by apply (ancestry_known g hs x V K), TA, Tx.
      assert (Sd : so_hash o ∈ w_seen w) by apply Sw, Ad. assert (Sx : x ∈ w_seen w) by apply Sw, TA, Tx.
      destruct (Cm x Kx) as [Z|[Z|Z]]; [auto|right; left|right; right]; eapply tc_edges; eauto.
    + intros d x y -> Bx [P Sy].
      assert (Ky : is_Some (g_ops g !! y)) by (apply (ancestry_known g hs y V K), Sw, Sy).
      destruct (Cm y Ky) as [Z|[Z|Z]]; [auto|right; eapply tc_edges; [exact Cl|exact Z|apply Sw, Ad]|]. exfalso.
      pose proof (tc_edges_before _ _ _ _ Bx) as Bx'. destruct P as (oy & Ey & Hx).
      apply tc_last in Z. destruct Z as [(oy' & Ey' & Z)|(p & Z & (oy' & Ey' & Hp))]; rewrite Ey in Ey'; injection Ey' as <-.
      * exact (U y oy x (so_hash o) Ey Hx Z Bx').
      * apply (U y oy x p Ey Hx Hp). eapply tc_transitive; eauto.
    + split.
      * eapply holds_ext; [apply Tw|..]; intros; set_solver.
      * intros x Tx _. destruct Tw as [_ R]. exact (holds_lookup _ _ _ x R Tx).
    + constructor.
      * intros x. set_solver.
      * set_solver.
      * intros x Tx _. apply (holds_lookup _ _ _ x Cw). apply TA in Tx as Ax. destruct Ax as (k & Hk & R). destruct R as [x|x y z P R]; [left; exact Hk|].
        right. exists y. split; [exact P|]. apply Sw. exists z. auto.
    + set_solver.
    + set_solver.
    + intros x Hx. inversion Hx.
    + intros x Hx. inversion Hx.
Qed.
