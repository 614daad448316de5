(** Order of replay and materialised members. *)
From Coq Require Import Arith Lia.
From stdpp Require Import base list gmap relations sorting.
From Verif Require Import AccessModel GroupModel CgkaSpec GroupSpec GroupProofs.

Lemma known_parent g o p : known g o -> p ∈ parents o -> known g p.
Proof. intros (h & H & R) E. exists h. split; [exact H|]. eapply rtc_r; [exact R|exact E]. Qed.
Lemma proof_parent d p : d_proof d = Some p -> MD p ∈ parents (MD d).
Proof. intros E. cbn. rewrite E. left. Qed.
Lemma revoke_parent r : MD (r_revoke r) ∈ parents (MR r).
Proof. left. Qed.
Lemma lineage_proof d p : d_proof d = Some p -> lineage d = p :: lineage p.
Proof. destruct d; cbn. intros ->. reflexivity. Qed.
Lemma lineage_none d : d_proof d = None -> lineage d = [].
Proof. destruct d; cbn. intros ->. reflexivity. Qed.
Lemma lineage_rtc d p : p ∈ lineage d -> tc depends_on (MD d) (MD p).
Proof.
  assert (G : forall n d, d_size d <= n -> p ∈ lineage d -> tc depends_on (MD d) (MD p)).
  { induction n as [|n IH]; intros e L H; [destruct e; cbn in L; lia|].
    destruct (d_proof e) as [q|] eqn:E; [|rewrite (lineage_none _ E) in H; inversion H].
    rewrite (lineage_proof _ _ E) in H. pose proof (parent_size _ _ (proof_parent _ _ E)) as S. cbn in S.
    apply elem_of_cons in H as [->|H]; [apply tc_once; apply proof_parent, E|].
    eapply tc_l; [apply proof_parent, E|]. apply IH; [lia|exact H]. }
  eapply G. reflexivity.
Qed.
Definition closed (P : mop -> Prop) : Prop := forall o p, P o -> p ∈ parents o -> P p.
Lemma known_closed g : closed (known g).
Proof. intros o p. apply known_parent. Qed.
Lemma revoked_from_above_orderable P : closed P -> genuine P -> revoked_from_above P -> orderable P.
Proof.
  intros C U A. exists (fun o => match o with MD d => 2 * d_size d | MR r => 2 * d_size (r_revoke r) + 1 end). split.
  - intros [d|r] p Po D.
    + pose proof (parent_size _ _ D) as L. cbn in L. destruct p as [q|r]; cbn in *; [lia|].
      pose proof (parent_size _ _ (revoke_parent r)) as L'. cbn in L'. lia.
    + unfold depends_on in D. cbn in D. apply elem_of_cons in D as [->|D]; [lia|]. destruct (r_proof r) as [q|] eqn:E; [|inversion D].
      cbn in D. apply elem_of_list_singleton in D as ->. apply (A _ _ Po) in E. apply elem_of_cons in E as [->|E]; [lia|].
      apply lineage_rtc, tc_size in E. cbn in E. lia.
  - intros d p r Pd Pr E S. pose proof (proof_parent _ _ E) as D.
    assert (Q : MD (r_revoke r) = MD p) by (apply U; [eapply C; [exact Pr|apply revoke_parent]|eapply C; [exact Pd|exact D]|exact S]).
    injection Q as ->. apply parent_size in D. cbn in D. lia.
Qed.

(** ** The replay order *)
Section replay.
Context (order : gset nat -> list nat) (Hord : some_order order).

Definition heads_of (g : group) : list mop :=
  map MD (omap (gr_dheads g !!.) (order (dom (gr_dheads g)))) ++ map MR (omap (gr_rheads g !!.) (order (dom (gr_rheads g)))).
Lemma order_dom {A} (m : gmap nat A) x : x ∈ order (dom m) <-> is_Some (m !! x).
Proof. rewrite (Hord (dom m)), elem_of_elements, elem_of_dom. reflexivity. Qed.
Lemma heads_of_elem g o : filed g -> o ∈ heads_of g <-> is_head g o.
Proof.
  intros [F1 F2]. unfold heads_of. rewrite elem_of_app, !elem_of_list_fmap. setoid_rewrite elem_of_list_omap. split.
  - intros [(d & -> & s & _ & E)|(r & -> & s & _ & E)]; cbn; [rewrite (F1 _ _ E)|rewrite (F2 _ _ E)]; exact E.
  - destruct o as [d|r]; cbn; intros E; [left; exists d|right; exists r]; (split; [reflexivity|]);
      [exists (d_sig d)|exists (r_sig r)]; (split; [apply order_dom; eauto|exact E]).
Qed.

(** What [reverse_topsort] works on. *)
Record table (g : group) (all : gmap sig mop) (rd : gmap sig sig) : Prop := {
  tb_all : forall s o, all !! s = Some o <-> op_sig o = s /\ known g o;
  tb_rd : forall x y, rd !! x = Some y -> exists r, known g (MR r) /\ r_sig r = y /\ d_sig (r_revoke r) = x;
  tb_rd' : forall r, known g (MR r) -> is_Some (rd !! d_sig (r_revoke r))
}.
Lemma explore_table g : filed g -> genuine (known g) ->
  exists all rd, explore (sizes (heads_of g)) (reverse (heads_of g)) ∅ ∅ = Some (all, rd) /\ table g all rd.
Proof.
  intros F U. destruct (explore_total (sizes (heads_of g)) (reverse (heads_of g)) ∅ ∅) as [[all rd] E]; [rewrite sizes_reverse; lia|].
  exists all, rd. split; [exact E|].
  assert (I : explored (known g) (reverse (heads_of g)) ∅ ∅).
  { constructor; try (intros *; rewrite lookup_empty; discriminate).
    intros o H. rewrite elem_of_reverse in H. apply (heads_of_elem g o F) in H. exists o. split; [exact H|apply rtc_refl]. }
  destruct (explore_spec _ _ _ _ _ _ _ U (known_closed g) I E) as ([I1 I2 I3 I4 I5] & _ & H).
  assert (K : forall o, known g o -> all !! op_sig o = Some o).
  { intros o (h & Hh & R). assert (Ah : all !! op_sig h = Some h) by (apply H; rewrite elem_of_reverse; apply heads_of_elem; auto).
    clear Hh. induction R as [|a b c S R IH]; [exact Ah|]. apply IH. destruct (I3 _ _ _ Ah S) as [Q|Q]; [inversion Q|exact Q]. }
  constructor.
  - intros s o. split; [apply I1|]. intros [<- Ko]. apply K, Ko.
  - intros x y Q. destruct (I4 _ _ Q) as (r & A & B). apply I1 in A as [A1 A2]. eauto.
  - intros r Kr. eapply I5. apply K in Kr. exact Kr.
Qed.
(** The table does not depend on the order of the heads when nothing is revoked twice. *)
Lemma table_unique g g' all rd all' rd' : revoked_once (known g) -> (forall o, known g o <-> known g' o) ->
  table g all rd -> table g' all' rd' -> all = all' /\ rd = rd'.
Proof.
  intros U K T T'. split.
  - apply map_eq. intros s. destruct (all !! s) as [o|] eqn:E.
    + symmetry. apply (tb_all _ _ _ T'). apply (tb_all _ _ _ T) in E as [E1 E2]. split; [exact E1|apply K, E2].
    + destruct (all' !! s) as [o|] eqn:E'; [|reflexivity]. apply (tb_all _ _ _ T') in E' as [E1 E2]. rewrite <- E.
      apply (tb_all _ _ _ T). split; [exact E1|apply K, E2].
  - assert (G : forall x y, rd !! x = Some y -> rd' !! x = Some y).
    { intros x y E. destruct (tb_rd _ _ _ T _ _ E) as (r & Kr & <- & <-). apply K in Kr as Kr'.
      destruct (tb_rd' _ _ _ T' _ Kr') as [y E']. rewrite E'. destruct (tb_rd _ _ _ T' _ _ E') as (r' & Kr2 & <- & S).
      rewrite (U r' r); auto. apply K, Kr2. }
    apply map_eq. intros x. destruct (rd !! x) as [y|] eqn:E; [symmetry; apply G, E|].
    destruct (rd' !! x) as [y|] eqn:E'; [|reflexivity]. exfalso.
    destruct (tb_rd _ _ _ T' _ _ E') as (r & Kr & _ & <-). apply K in Kr. destruct (tb_rd' _ _ _ T _ Kr). congruence.
Qed.
Lemma edge_parent g all rd o p : table g all rd -> known g o -> p ∈ parents o -> edge all rd (op_sig o) (op_sig p).
Proof.
  intros T Ko Hp. exists o. split; [apply (tb_all _ _ _ T); auto|]. unfold succs. apply elem_of_app. left. apply elem_of_list_filter. split.
  - exists p. apply (tb_all _ _ _ T). split; [reflexivity|]. eapply known_parent; eauto.
  - apply elem_of_list_fmap. eauto.
Qed.
Lemma edge_revoked g all rd d p r : table g all rd -> revoked_once (known g) -> known g (MD d) -> known g (MR r) -> d_proof d = Some p ->
  d_sig (r_revoke r) = d_sig p -> edge all rd (d_sig d) (r_sig r).
Proof.
  intros T U Kd Kr E S. exists (MD d). split; [apply (tb_all _ _ _ T); auto|]. unfold succs. apply elem_of_app. right. rewrite E.
  apply elem_of_list_filter. split; [exists (MR r); apply (tb_all _ _ _ T); auto|].
  destruct (tb_rd' _ _ _ T _ Kr) as [y Q]. destruct (tb_rd _ _ _ T _ _ Q) as (r' & Kr' & <- & S').
  assert (r' = r) as -> by (apply U; auto). rewrite <- S, Q. left.
Qed.
Lemma edge_inv g all rd y x : table g all rd -> edge all rd y x -> exists o p, known g o /\ known g p /\ op_sig o = y /\ op_sig p = x /\
  (p ∈ parents o \/ exists d q r, o = MD d /\ d_proof d = Some q /\ p = MR r /\ d_sig (r_revoke r) = d_sig q).
Proof.
  intros T (o & E & H). apply (tb_all _ _ _ T) in E as [<- Ko]. unfold succs in H. apply elem_of_app in H as [H|H].
  - apply elem_of_list_filter in H as [_ H]. apply elem_of_list_fmap in H as (p & -> & H). exists o, p. split; [exact Ko|].
    split; [eapply known_parent; eauto|auto].
  - destruct o as [d|r]; [|inversion H]. destruct (d_proof d) as [q|] eqn:Q; [|inversion H]. apply elem_of_list_filter in H as [_ H].
    destruct (rd !! d_sig q) as [z|] eqn:Z; [|inversion H]. apply elem_of_list_singleton in H as ->.
    destruct (tb_rd _ _ _ T _ _ Z) as (r & Kr & <- & S). exists (MD d), (MR r). split; [exact Ko|]. split; [exact Kr|]. split; [reflexivity|].
    split; [reflexivity|]. right. exists d, q, r. auto.
Qed.
Lemma max_le n l : n ∈ l -> n <= foldr max 0 l.
Proof. induction 1 as [x l|x y l H IH]; cbn; lia. Qed.
(** The order of replay: [ops] are the operations in the order in which [rebuild] takes them. *)
Definition replay_order (g : group) (ops : list mop) : Prop :=
  exists l all, reverse_topsort order (gr_dheads g) (gr_rheads g) = Some (l, all) /\ ops = omap (all !!.) (reverse l).
Lemma omap_sigs (all : gmap sig mop) l : (forall x o, all !! x = Some o -> op_sig o = x) -> (forall x, x ∈ l -> is_Some (all !! x)) ->
  map op_sig (omap (all !!.) l) = l.
Proof.
  intros S H. induction l as [|x l IH]; [reflexivity|]. cbn. destruct (H x) as [o E]; [left|]. rewrite E. cbn. rewrite (S _ _ E). f_equal.
  apply IH. intros y Hy. apply H. right. exact Hy.
Qed.
Lemma replay_order_spec g : filed g -> genuine (known g) ->
  exists ops, replay_order g ops /\ NoDup ops /\ (forall o, o ∈ ops -> known g o) /\
    (forall i j o p, ops !! i = Some o -> ops !! j = Some p -> p ∈ parents o -> j < i) /\
    (orderable (known g) -> forall o, known g o -> o ∈ ops) /\
    (revoked_once (known g) -> forall i j d p r, ops !! i = Some (MD d) -> ops !! j = Some (MR r) -> d_proof d = Some p ->
       d_sig (r_revoke r) = d_sig p -> j < i).
Proof.
  intros F U. destruct (explore_table g F U) as (all & rd & E & T).
  destruct (drain_spec all rd (size all) (build_deps all rd) [] (draining_start all rd)) as (l & g' & El & D & End); [cbn; lia|].
  assert (Ha : forall x, x ∈ l -> is_Some (all !! x)) by apply (dr_acc _ _ _ _ D).
  assert (Hs : forall x o, all !! x = Some o -> op_sig o = x) by (intros x o Q; apply (tb_all _ _ _ T) in Q; tauto).
  pose (ops := omap (all !!.) (reverse l)).
  assert (Hsig : map op_sig ops = reverse l).
  { apply omap_sigs; [exact Hs|]. intros x Hx. rewrite elem_of_reverse in Hx. apply Ha, Hx. }
  assert (Hk : forall o, o ∈ ops -> known g o).
  { intros o Ho. apply elem_of_list_omap in Ho as (x & _ & Q). apply (tb_all _ _ _ T) in Q. tauto. }
  assert (Hidx : forall i o, ops !! i = Some o -> reverse l !! i = Some (op_sig o)).
  { intros i o Q. rewrite <- Hsig, list_lookup_fmap, Q. reflexivity. }
  assert (Hedge : forall i j o p, ops !! i = Some o -> ops !! j = Some p -> edge all rd (op_sig o) (op_sig p) -> j < i).
  { intros i j o p Qo Qp Ed. apply Hidx in Qo, Qp. pose proof (lookup_lt_Some _ _ _ Qo) as Li. pose proof (lookup_lt_Some _ _ _ Qp) as Lj.
    rewrite reverse_length in Li, Lj. rewrite reverse_lookup in Qo, Qp by lia.
    destruct (dr_order _ _ _ _ D _ _ _ Qp Ed) as (k & Lk & Qk). pose proof (NoDup_lookup _ _ _ _ (dr_nodup _ _ _ _ D) Qk Qo). lia. }
  exists ops. split; [exists l, all; split; [|reflexivity]; unfold reverse_topsort; fold (heads_of g); change (foldr Nat.add 0 (map op_size (heads_of g))) with (sizes (heads_of g)); rewrite E, El; reflexivity|].
  split; [|split; [exact Hk|split; [|split]]].
  - apply (NoDup_fmap_1 op_sig). change (NoDup (map op_sig ops)). rewrite Hsig, (reverse_Permutation l). apply (dr_nodup _ _ _ _ D).
  - intros i j o p Qo Qp Hp. eapply Hedge; [exact Qo|exact Qp|]. eapply edge_parent; [exact T| |exact Hp]. apply Hk. eapply elem_of_list_lookup_2. exact Qo.
  - intros [f [F1 F2]] o Ko.
    assert (G0 : g' = ∅).
    { destruct End as [->|R]; [reflexivity|]. 
      destruct (decide (g' = ∅)) as [->|N]; [reflexivity|exfalso].
      pose (M := foldr max 0 (map f (map snd (map_to_list all)))).
      assert (HM : forall x o, all !! x = Some o -> f o <= M).
      { intros x o' Q. apply elem_of_map_to_list in Q. apply max_le. apply elem_of_list_fmap. exists o'. split; [reflexivity|].
        apply elem_of_list_fmap. exists (x, o'). auto. }
      apply N. eapply (drain_complete all rd g' l (fun x => match all !! x with Some o => M - f o | None => 0 end)); [|exact D|exact R].
      intros x y Ed. destruct (edge_inv _ _ _ _ _ T Ed) as (a & b & Ka & Kb & <- & <- & C).
      assert (Qa : all !! op_sig a = Some a) by (apply (tb_all _ _ _ T); auto). assert (Qb : all !! op_sig b = Some b) by (apply (tb_all _ _ _ T); auto).
      rewrite Qa, Qb. pose proof (HM _ _ Qa). pose proof (HM _ _ Qb). enough (f b < f a) by lia.
      destruct C as [C|(d & q & r & -> & Q & -> & S)]; [apply F1; auto|eapply F2; eauto]. }
    subst g'. assert (Qo : all !! op_sig o = Some o) by (apply (tb_all _ _ _ T); auto).
    apply elem_of_list_omap. exists (op_sig o). split; [|exact Qo]. rewrite elem_of_reverse. destruct (decide (op_sig o ∈ l)) as [H|H]; [exact H|exfalso].
    assert (Nd : node ∅ (op_sig o)) by (apply (dr_nodes _ _ _ _ D); eauto). destruct Nd as [? Nd]. discriminate.
  - intros O i j d p r Qd Qr P S. eapply Hedge; [exact Qd|exact Qr|].
    eapply (edge_revoked g); [exact T|exact O| | |exact P|exact S]; apply Hk; eapply elem_of_list_lookup_2; eassumption.
Qed.
End replay.
