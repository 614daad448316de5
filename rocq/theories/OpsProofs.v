(** The replay order of an operation graph. *)
From Coq Require Import Arith Lia.
From stdpp Require Import base list gmap relations sorting.
From Verif Require Import ResModel KeysModel TreeModel OpsModel OpsSpec OpsInv.

(** ** Walking the ancestry *)

(** A map from keys to sets holds the relation [R] on the keys that satisfy [K]. *)
Definition holds (m : gmap digest (gset digest)) (K : digest -> Prop) (R : digest -> digest -> Prop) : Prop :=
  forall x, (forall s, m !! x = Some s -> K x /\ forall y, y ∈ s <-> R x y) /\ (K x -> is_Some (m !! x)).

Lemma holds_lookup m K R x : holds m K R -> K x -> exists s, m !! x = Some s /\ forall y, y ∈ s <-> R x y.
Proof. intros H Kx. destruct (H x) as [A B]. destruct (B Kx) as [s E]. exists s. split; [exact E|]. apply (A s E). Qed.

Lemma holds_ext m K K' R R' : holds m K R -> (forall x, K x <-> K' x) -> (forall x y, R x y <-> R' x y) -> holds m K' R'.
Proof.
  intros H EK ER x. destruct (H x) as [A B]. split.
  - intros s E. destruct (A s E) as [C D]. split; [apply EK, C|]. intros y. rewrite D. apply ER.
  - intros C. apply B, EK, C.
Qed.

Lemma or_default_holds m (K : digest -> Prop) (R : digest -> digest -> Prop) k : (forall y, R k y -> K k) ->
  holds m K R -> holds (or_default m k) (fun x => K x \/ x = k) R.
Proof.
  intros RK H x. unfold or_default. destruct (m !! k) as [s0|] eqn:E.
  - destruct (H x) as [A B]. split.
    + intros s Es. destruct (A s Es). auto.
    + intros [Kx| ->]; [auto|rewrite E; eauto].
  - destruct (decide (x = k)) as [->|Ne].
    + rewrite lookup_insert. split; [|eauto]. intros s Es. injection Es as <-. split; [auto|].
      intros y. split; [set_solver|]. intros Ry. apply RK, (H k) in Ry. rewrite E in Ry. destruct Ry; discriminate.
    + rewrite lookup_insert_ne by auto. destruct (H x) as [A B]. split.
      * intros s Es. destruct (A s Es). auto.
      * intros [Kx| ->]; [auto|contradiction].
Qed.

Lemma entry_insert_holds m (K : digest -> Prop) (R : digest -> digest -> Prop) k v : (forall y, R k y -> K k) ->
  holds m K R -> holds (entry_insert m k v) (fun x => K x \/ x = k) (fun x y => R x y \/ (x = k /\ y = v)).
Proof.
  intros RK H x. unfold entry_insert. destruct (decide (x = k)) as [->|Ne].
  - rewrite lookup_insert. split; [|eauto]. intros s Es. injection Es as <-. split; [auto|].
    intros y. rewrite elem_of_union, elem_of_singleton. destruct (H k) as [A B]. destruct (m !! k) as [s0|] eqn:E; cbn.
    + destruct (A s0 eq_refl) as [_ D]. rewrite D. intuition.
    + split; [set_solver|]. intros [Ry|[_ Q]]; [|auto]. apply RK, B in Ry. destruct Ry; discriminate.
  - rewrite lookup_insert_ne by auto. destruct (H x) as [A B]. split.
    + intros s Es. destruct (A s Es) as [C D]. split; [auto|]. intros y. rewrite D. intuition.
    + intros [Kx| ->]; [auto|contradiction].
Qed.

(** The topological sorter and the successor map hold the edges [E] (predecessor,
    successor). *)
Definition touches (E : digest -> digest -> Prop) (x : digest) : Prop := exists y, E x y \/ E y x.
Definition ts_holds (ts : topsort) (E : digest -> digest -> Prop) : Prop :=
  holds (ts_deps ts) (touches E) (fun x p => E p x) /\ holds (ts_rdeps ts) (touches E) (fun x y => E x y).
Definition succ_holds (succ : gmap digest (gset digest)) (hs : list digest) (E : digest -> digest -> Prop) : Prop :=
  holds succ (fun x => x ∈ hs \/ exists y, E x y) (fun x y => E x y).

Definition plus (E : digest -> digest -> Prop) (p h : digest) : digest -> digest -> Prop :=
  fun x y => E x y \/ (x = p /\ y = h).

Lemma touches_plus E p h x : touches (plus E p h) x <-> (touches E x \/ x = p) \/ x = h.
Proof.
  unfold touches, plus. split.
  - intros (y & [[A|[-> _]]|[A|[_ ->]]]); eauto.
  - intros [[(y & [A|A])| ->]| ->]; eauto 6.
Qed.

Lemma add_dependency_holds ts E p h : ts_holds ts E -> ts_holds (add_dependency ts p h) (plus E p h).
Proof.
  intros [D R]. unfold add_dependency. split; cbn [ts_deps ts_rdeps].
  - eapply holds_ext; [apply entry_insert_holds; [|apply or_default_holds; [|exact D]]|..].
    + intros y Q. left. exists y. auto.
    + intros y Q. exists y. auto.
    + intros x. cbn. rewrite touches_plus. tauto.
    + intros x y. cbn. unfold plus. tauto.
  - eapply holds_ext; [apply entry_insert_holds; [|apply or_default_holds; [|exact R]]|..].
    + intros y Q. left. exists y. auto.
    + intros y Q. exists y. auto.
    + intros x. cbn. rewrite touches_plus. tauto.
    + intros x y. cbn. unfold plus. tauto.
Qed.

Lemma succ_insert_holds succ hs E p h : succ_holds succ hs E -> succ_holds (entry_insert succ p h) hs (plus E p h).
Proof.
  intros S. eapply holds_ext; [apply entry_insert_holds; [|exact S]|..].
  - intros y Q. right. eauto.
  - intros x. cbn. unfold plus. split; [intros [[H|[y H]]| ->]|intros [H|(y & [H|[-> _]])]]; eauto.
  - intros x y. cbn. unfold plus. tauto.
Qed.

Lemma ts_holds_ext ts E E' : (forall x y, E x y <-> E' x y) -> ts_holds ts E -> ts_holds ts E'.
Proof.
  intros H [A B]. assert (T : forall x, touches E x <-> touches E' x) by (intros x; unfold touches; split; intros (y & [Q|Q]); exists y; [left|right|left|right]; apply H, Q).
  split; (eapply holds_ext; [eassumption|exact T|]); intros; apply H.
Qed.
Lemma succ_holds_ext s hs E E' : (forall x y, E x y <-> E' x y) -> succ_holds s hs E -> succ_holds s hs E'.
Proof. intros H A. eapply holds_ext; [exact A|..]; [intros x; cbn; split; intros [Q|[y Q]]; [auto|right; exists y; apply H, Q|auto|right; exists y; apply H, Q]|intros; apply H]. Qed.

(** Invariant of the walk; [D] are the operations whose predecessors were visited. *)
Record WInv (hs : list digest) (w : walk) (D : gset digest) (E : digest -> digest -> Prop) : Prop := {
  wi_ts : ts_holds (w_ts w) E;
  wi_succ : succ_holds (w_succ w) hs E;
  wi_nodup : NoDup (w_frontier w);
  wi_seen x : x ∈ w_seen w <-> x ∈ D \/ x ∈ w_frontier w;
  wi_disj x : x ∈ D -> x ∉ w_frontier w;
  wi_heads x : x ∈ hs -> x ∈ w_seen w
}.

Lemma walk_preds_inv hs h l w D E : WInv hs w D E ->
  exists E', WInv hs (foldl (walk_pred h) w l) D E' /\
    (forall x y, E' x y <-> E x y \/ (x ∈ l /\ y = h)) /\
    (forall x, x ∈ w_seen (foldl (walk_pred h) w l) <-> x ∈ w_seen w \/ x ∈ l).
Proof.
  revert w E; induction l as [|p l IH]; intros w E V; cbn [foldl].
  - exists E. split; [exact V|]. split; intros; rewrite elem_of_nil; tauto.
  - destruct (IH (walk_pred h w p) (plus E p h)) as (E' & V' & HE & HS).
    + unfold walk_pred. destruct (decide (p ∈ w_seen w)) as [S|S]; constructor; cbn.
      * apply add_dependency_holds, V.
      * apply succ_insert_holds, V.
      * apply V.
      * apply V.
      * apply V.
      * apply V.
      * apply add_dependency_holds, V.
      * apply succ_insert_holds, V.
      * apply NoDup_app. split; [apply V|]. split; [|apply NoDup_singleton].
        intros x Hx Q. apply elem_of_list_singleton in Q as ->. apply S, (wi_seen _ _ _ _ V). auto.
      * intros x. rewrite elem_of_union, elem_of_singleton, elem_of_app, elem_of_list_singleton, (wi_seen _ _ _ _ V). tauto.
      * intros x Hx Q. apply elem_of_app in Q as [Q|Q]; [eapply wi_disj; eauto|].
        apply elem_of_list_singleton in Q as ->. apply S, (wi_seen _ _ _ _ V). auto.
      * intros x Hx. apply elem_of_union. left. eapply wi_heads; eauto.
    + exists E'. split; [exact V'|]. split.
      * intros x y. rewrite HE. unfold plus. rewrite elem_of_cons. intuition congruence.
      * intros x. rewrite HS, elem_of_cons. unfold walk_pred. destruct (decide (p ∈ w_seen w)); cbn.
        -- split; [tauto|]. intros [?|[-> |?]]; auto.
        -- rewrite elem_of_union, elem_of_singleton. tauto.
Qed.

Definition edges_of (g : graph) (D : gset digest) : digest -> digest -> Prop := fun x y => pred_of g x y /\ y ∈ D.

Lemma winv_ext hs w D E E' : (forall x y, E x y <-> E' x y) -> WInv hs w D E -> WInv hs w D E'.
Proof. intros H V. destruct V. constructor; auto; [eapply ts_holds_ext; eauto|eapply succ_holds_ext; eauto]. Qed.

Lemma walk_loop_inv g hs fuel w D : GInv g -> WInv hs w D (edges_of g D) ->
  (forall x, x ∈ w_seen w -> is_Some (g_ops g !! x) /\ in_ancestry g hs x) ->
  (forall x p, x ∈ D -> pred_of g p x -> p ∈ w_seen w) ->
  size (dom (g_preds g) ∖ D) < fuel ->
  exists w' D', walk_loop fuel g w = Ok w' /\ WInv hs w' D' (edges_of g D') /\ w_frontier w' = [] /\
    (forall x, x ∈ w_seen w' -> is_Some (g_ops g !! x) /\ in_ancestry g hs x) /\
    (forall x p, x ∈ D' -> pred_of g p x -> p ∈ w_seen w').
Proof.
  intros V. revert w D; induction fuel as [|fuel IH]; intros w D W S C F; [lia|].
  cbn [walk_loop]. destruct (w_frontier w) as [|h rest] eqn:Fr; [exists w, D; auto|].
  assert (Sh : h ∈ w_seen w) by (apply (wi_seen _ _ _ _ W); rewrite Fr; right; left).
  destruct (S h Sh) as [[o Ko] Ah]. rewrite (gi_preds _ V), Ko. cbn [fmap option_fmap option_map ok_or rbind].
  pose proof (wi_nodup _ _ _ _ W) as Nd. rewrite Fr in Nd. apply NoDup_cons in Nd as [Nh Nr].
  assert (Dh : h ∉ D) by (intros Q; apply (wi_disj _ _ _ _ W) in Q; rewrite Fr in Q; apply Q; left).
  set (D1 := D ∪ {[ h ]}).
  destruct (walk_preds_inv hs h (elements (op_preds (so_op o))) (Walk (w_ts w) (w_succ w) rest (w_seen w)) D1 (edges_of g D)) as (E' & W' & HE & HS).
  { constructor; cbn.
    - apply W.
    - apply W.
    - exact Nr.
    - intros x. rewrite (wi_seen _ _ _ _ W), Fr, elem_of_cons. unfold D1. rewrite elem_of_union, elem_of_singleton. tauto.
    - intros x Hx. unfold D1 in Hx. apply elem_of_union in Hx as [Hx|Hx].
      + intros Q. apply (wi_disj _ _ _ _ W) in Hx. apply Hx. rewrite Fr. right. exact Q.
      + apply elem_of_singleton in Hx as ->. exact Nh.
    - apply W. }
  cbn [w_seen] in HS.
  assert (PO : forall p, pred_of g p h <-> p ∈ op_preds (so_op o)).
  { intros p. unfold pred_of. rewrite Ko. split; [intros (o' & Q & Hp); injection Q as <-; exact Hp|eauto]. }
  apply IH with (D := D1).
  - eapply winv_ext; [|exact W']. intros x y. rewrite HE, elem_of_elements, <- PO. unfold edges_of, D1.
    rewrite elem_of_union, elem_of_singleton. split.
    + intros [[A B]|[A ->]]; auto.
    + intros [A [B| ->]]; auto.
  - intros x. rewrite HS, elem_of_elements, <- PO. intros [Q|Q]; [apply S, Q|]. split; [eapply (gi_closed _ V); eauto|].
    destruct Ah as (k & Hk & R). exists k. split; [exact Hk|]. eapply rtc_l; eauto.
  - intros x p Hx Hp. apply HS. rewrite elem_of_elements, <- PO. unfold D1 in Hx. apply elem_of_union in Hx as [Hx|Hx].
    + left. eapply C; eauto.
    + apply elem_of_singleton in Hx as ->. auto.
  - assert (Q : dom (g_preds g) ∖ D1 ⊂ dom (g_preds g) ∖ D); [|apply subset_size in Q; lia].
    split; [unfold D1; set_solver|]. intros Q.
    assert (Q' : h ∈ dom (g_preds g) ∖ D1); [|unfold D1 in Q'; set_solver].
    apply Q, elem_of_difference. split; [|exact Dh]. apply elem_of_dom. rewrite (gi_preds _ V), Ko. cbn. eauto.
Qed.

Lemma in_ancestry_start g hs x : x ∈ hs -> in_ancestry g hs x.
Proof. intros H. exists x. split; [exact H|constructor]. Qed.

Lemma list_to_map_fst (hs : list digest) x s :
  (list_to_map (map (fun h => (h, ∅)) hs) : gmap digest (gset digest)) !! x = Some s <-> x ∈ hs /\ s = ∅.
Proof.
  induction hs as [|h hs IH]; cbn.
  - rewrite lookup_empty, elem_of_nil. split; [discriminate|tauto].
  - rewrite elem_of_cons. destruct (decide (x = h)) as [->|Ne].
    + rewrite lookup_insert. split; [intros Q; injection Q as <-; auto|]. intros [_ ->]. reflexivity.
    + rewrite lookup_insert_ne by auto. rewrite IH. tauto.
Qed.

(** What the walk finds: the ancestry, with all its edges. *)
Lemma walk_spec g hs : GInv g -> NoDup hs -> (forall x, x ∈ hs -> is_Some (g_ops g !! x)) ->
  exists w, walk_loop (S (size (g_preds g))) g (walk_start hs) = Ok w /\
    (forall x, x ∈ w_seen w <-> in_ancestry g hs x) /\
    ts_holds (w_ts w) (edges_of g (w_seen w)) /\ succ_holds (w_succ w) hs (edges_of g (w_seen w)).
Proof.
  intros V N K.
  destruct (walk_loop_inv g hs (S (size (g_preds g))) (walk_start hs) ∅ V) as (w & D & E & W & Fr & S & C).
  - constructor; cbn.
    + split; intros x; cbn; rewrite lookup_empty; split; try discriminate; intros (y & [[_ Q]|[_ Q]]); set_solver.
    + intros x. split.
      * intros s Es. apply list_to_map_fst in Es as [Hx ->]. split; [auto|]. intros y. split; [set_solver|]. intros [_ Q]. set_solver.
      * intros [Hx|(y & _ & Q)]; [|set_solver]. exists ∅. apply list_to_map_fst. auto.
    + exact N.
    + intros x. rewrite elem_of_list_to_set. set_solver.
    + set_solver.
    + intros x Hx. apply elem_of_list_to_set. exact Hx.
  - intros x. cbn. rewrite elem_of_list_to_set. intros Hx. split; [auto|]. apply in_ancestry_start. exact Hx.
  - set_solver.
  - rewrite difference_empty_L, size_dom. lia.
  - assert (DS : forall x, x ∈ D <-> x ∈ w_seen w).
    { intros x. rewrite (wi_seen _ _ _ _ W), Fr, elem_of_nil. tauto. }
    exists w. split; [exact E|]. split.
    + intros x. split; [intros Q; apply S, Q|]. intros (k & Hk & R).
      apply (wi_heads _ _ _ _ W) in Hk. induction R as [x|x y z Rxy _ IH]; [exact Hk|].
      eapply C; [apply DS, IH, Hk|exact Rxy].
    + assert (EE : forall x y, edges_of g D x y <-> edges_of g (w_seen w) x y) by (intros; unfold edges_of; rewrite DS; tauto).
      split; [eapply ts_holds_ext; [exact EE|apply W]|eapply succ_holds_ext; [exact EE|apply W]].
Qed.
