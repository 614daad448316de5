(** Replay order of membership operations. *)
From Coq Require Import Arith Lia.
From stdpp Require Import base list gmap relations sorting.
From Verif Require Import AccessModel GroupModel CgkaSpec GroupSpec.

(** ** Exploring *)
Definition sizes (l : list mop) : nat := foldr Nat.add 0 (map op_size l).
Lemma sizes_app a b : sizes (a ++ b) = sizes a + sizes b.
Proof. unfold sizes. rewrite map_app. induction (map op_size a) as [|x l IH]; cbn; [reflexivity|rewrite IH; lia]. Qed.
Lemma sizes_reverse l : sizes (reverse l) = sizes l.
Proof. induction l as [|x l IH]; [reflexivity|]. rewrite reverse_cons, sizes_app, IH. unfold sizes. cbn. lia. Qed.
Lemma parents_size o : sizes (parents o) < op_size o.
Proof.
  destruct o as [[s i t c p l n]|[s i d p n]]; cbn [parents op_size d_size r_size d_proof d_after r_revoke r_proof].
  - rewrite sizes_app. assert (E : sizes (map MR l) = (fix go (l : list rev) : nat := match l with [] => 0 | r :: l => r_size r + go l end) l).
    { induction l as [|r l IH]; [reflexivity|]. unfold sizes in *. cbn. rewrite IH. reflexivity. }
    rewrite E. destruct p; cbn; unfold sizes; cbn; lia.
  - unfold sizes. cbn. destruct p; cbn; lia.
Qed.
Lemma parent_size o p : p ∈ parents o -> op_size p < op_size o.
Proof.
  intros H. pose proof (parents_size o). enough (op_size p <= sizes (parents o)) by lia.
  clear -H. induction H as [x l|x y l H IH]; unfold sizes in *; cbn; lia.
Qed.
Lemma rtc_size a b : rtc depends_on a b -> op_size b <= op_size a.
Proof. induction 1 as [|a b c S _ IH]; [lia|]. apply parent_size in S. lia. Qed.
Lemma tc_size a b : tc depends_on a b -> op_size b < op_size a.
Proof. induction 1 as [a b S|a b c S _ IH]; apply parent_size in S; lia. Qed.

Lemma explore_total n stack all rd : sizes stack <= n -> exists x, explore n stack all rd = Some x.
Proof.
  revert stack all rd. induction n as [|n IH]; intros [|o st] all rd L; cbn; eauto.
  - exfalso. pose proof (parents_size o). unfold sizes in *. cbn in L. lia.
  - unfold sizes in L. cbn in L. destruct (decide _).
    + apply IH. unfold sizes. pose proof (parents_size o). lia.
    + apply IH. rewrite sizes_app, sizes_reverse. pose proof (parents_size o). unfold sizes at 2. lia.
Qed.

(** What exploring has found so far. *)
Record explored (R : mop -> Prop) (stack : list mop) (all : gmap sig mop) (rd : gmap sig sig) : Prop := {
  ex_all : forall s o, all !! s = Some o -> op_sig o = s /\ R o;
  ex_stack : forall o, o ∈ stack -> R o;
  ex_closed : forall s o p, all !! s = Some o -> p ∈ parents o -> p ∈ stack \/ all !! op_sig p = Some p;
  ex_rd : forall x y, rd !! x = Some y -> exists r, all !! y = Some (MR r) /\ d_sig (r_revoke r) = x;
  ex_rd' : forall s r, all !! s = Some (MR r) -> is_Some (rd !! d_sig (r_revoke r))
}.
Lemma explore_spec R n stack all rd all' rd' : genuine R -> (forall o p, R o -> p ∈ parents o -> R p) ->
  explored R stack all rd -> explore n stack all rd = Some (all', rd') ->
  explored R [] all' rd' /\ all ⊆ all' /\ (forall o, o ∈ stack -> all' !! op_sig o = Some o).
Proof.
  intros U C. revert stack all rd. induction n as [|n IH]; intros [|o st] all rd I E; cbn in E; try discriminate.
  - injection E as <- <-. split; [exact I|]. split; [reflexivity|]. intros o H. inversion H.
  - injection E as <- <-. split; [exact I|]. split; [reflexivity|]. intros o H. inversion H.
  - destruct I as [I1 I2 I3 I4 I5]. assert (Ro : R o) by (apply I2; left). destruct (decide _) as [[o' K]|N].
    + assert (o' = o) as ->. { destruct (I1 _ _ K) as [S R']. apply U; auto. }
      apply IH in E as (E & S & A).
      * split; [exact E|]. split; [exact S|]. intros x Hx. apply elem_of_cons in Hx as [-> |Hx]; [|auto]. eapply lookup_weaken; eauto.
      * constructor; auto.
        -- intros x Hx. apply I2. right. exact Hx.
        -- intros s x p Q Hp. destruct (I3 _ _ _ Q Hp) as [H|H]; [|auto]. apply elem_of_cons in H as [-> |H]; auto.
    + assert (N' : all !! op_sig o = None) by (destruct (all !! op_sig o) eqn:Q; [exfalso; apply N; eauto|reflexivity]).
      apply IH in E as (E & S & A).
      * split; [exact E|]. split; [transitivity (<[op_sig o := o]> all); [apply insert_subseteq, N'|exact S]|].
        intros x Hx. apply elem_of_cons in Hx as [-> |Hx].
        -- eapply lookup_weaken; [|exact S]. apply lookup_insert.
        -- apply A. apply elem_of_app. right. exact Hx.
      * constructor.
        -- intros s x Q. apply lookup_insert_Some in Q as [[<- <-]|[_ Q]]; eauto.
        -- intros x Hx. apply elem_of_app in Hx as [Hx|Hx]; [rewrite elem_of_reverse in Hx; eapply C; eauto|apply I2; right; exact Hx].
        -- intros s x p Q Hp. apply lookup_insert_Some in Q as [[<- <-]|[_ Q]].
           ++ left. apply elem_of_app. left. rewrite elem_of_reverse. exact Hp.
           ++ destruct (I3 _ _ _ Q Hp) as [H|H].
              ** apply elem_of_cons in H as [-> |H]; [right; apply lookup_insert|left; apply elem_of_app; right; exact H].
              ** right. destruct (decide (op_sig o = op_sig p)) as [Q'|Q'].
                 --- rewrite Q', H in N'. discriminate.
                 --- rewrite lookup_insert_ne; auto.
        -- intros x y Q.
           assert (D : rd !! x = Some y \/ exists r, o = MR r /\ x = d_sig (r_revoke r) /\ y = r_sig r).
           { destruct o as [d|r]; [auto|]. apply lookup_insert_Some in Q as [[<- <-]|[_ Q]]; eauto. }
           destruct D as [D|(r & -> & -> & ->)].
           ++ destruct (I4 _ _ D) as (r & K & Hr). exists r. split; [|exact Hr]. rewrite lookup_insert_ne; [exact K|]. intros Q'.
              rewrite Q', K in N'. discriminate.
           ++ exists r. split; [apply (lookup_insert all (op_sig (MR r)))|reflexivity].
        -- intros s r Q. apply lookup_insert_Some in Q as [[<- ->]|[_ Q]].
           ++ rewrite lookup_insert. eauto.
           ++ apply I5 in Q. destruct o as [d|r']; [exact Q|]. destruct (decide (d_sig (r_revoke r') = d_sig (r_revoke r))) as [-> |Ne];
                [rewrite lookup_insert; eauto|rewrite lookup_insert_ne; auto].
Qed.

(** ** Dependency graph *)
Lemma add_node_lookup g x y : add_node g x !! y = if decide (x = y) then Some (default ∅ (g !! y)) else g !! y.
Proof.
  unfold add_node. destruct (g !! x) eqn:E.
  - destruct (decide (x = y)) as [<-|N]; [rewrite E; reflexivity|reflexivity].
  - destruct (decide (x = y)) as [<-|N]; [rewrite lookup_insert, E; reflexivity|rewrite lookup_insert_ne; auto].
Qed.
Definition preds (g : deps) (x : sig) : gset sig := default ∅ (g !! x).
Definition node (g : deps) (x : sig) : Prop := is_Some (g !! x).
Lemma add_node_node g x y : node (add_node g x) y <-> x = y \/ node g y.
Proof. unfold node. rewrite add_node_lookup. destruct (decide (x = y)) as [->|N]; [|tauto]. split; [auto|eauto]. Qed.
Lemma add_node_preds g x y : preds (add_node g x) y = preds g y.
Proof. unfold preds. rewrite add_node_lookup. destruct (decide (x = y)) as [->|N]; reflexivity. Qed.
Lemma add_dep_node g a b y : node (add_dependency g a b) y <-> a = y \/ b = y \/ node g y.
Proof.
  unfold add_dependency, node. destruct (decide (b = y)) as [->|N].
  - rewrite lookup_insert. split; [auto|eauto].
  - rewrite lookup_insert_ne by exact N. fold (node (add_node g a) y). rewrite add_node_node. unfold node. naive_solver.
Qed.
Lemma add_dep_preds g a b x y : y ∈ preds (add_dependency g a b) x <-> (y = a /\ x = b) \/ y ∈ preds g x.
Proof.
  unfold add_dependency. destruct (decide (b = x)) as [->|N].
  - unfold preds at 1. rewrite lookup_insert. cbn. rewrite elem_of_union, elem_of_singleton. fold (preds (add_node g a) x). rewrite add_node_preds. naive_solver.
  - unfold preds at 1. rewrite lookup_insert_ne by exact N. fold (preds (add_node g a) x). rewrite add_node_preds. naive_solver.
Qed.
Lemma add_deps_node g a l y : node (foldl (fun g b => add_dependency g a b) g l) y <-> (a = y /\ l <> []) \/ y ∈ l \/ node g y.
Proof.
  revert g. induction l as [|b l IH]; intros g; cbn.
  - rewrite elem_of_nil. naive_solver.
  - rewrite IH, add_dep_node, elem_of_cons. naive_solver.
Qed.
Lemma add_deps_preds g a l x y : y ∈ preds (foldl (fun g b => add_dependency g a b) g l) x <-> (y = a /\ x ∈ l) \/ y ∈ preds g x.
Proof.
  revert g. induction l as [|b l IH]; intros g; cbn.
  - rewrite elem_of_nil. naive_solver.
  - rewrite IH, add_dep_preds, elem_of_cons. naive_solver.
Qed.
Lemma drop_node l g x : node (drop_nodes l g) x <-> node g x /\ x ∉ l.
Proof.
  unfold drop_nodes, node. rewrite lookup_fmap, fmap_is_Some. split.
  - intros [s E]. apply map_filter_lookup_Some in E as [E N]. eauto.
  - intros [[s E] N]. exists s. apply map_filter_lookup_Some. auto.
Qed.
Lemma drop_preds l g x y : y ∈ preds (drop_nodes l g) x -> x ∉ l /\ y ∉ l /\ y ∈ preds g x.
Proof.
  unfold drop_nodes, preds. rewrite lookup_fmap. destruct (_ !! x) as [s|] eqn:E; cbn; [|set_solver].
  apply map_filter_lookup_Some in E as [E N]. rewrite E. cbn in *. rewrite elem_of_difference, elem_of_list_to_set. tauto.
Qed.
Lemma drop_preds' l g x y : x ∉ l -> y ∉ l -> y ∈ preds g x -> y ∈ preds (drop_nodes l g) x.
Proof.
  unfold drop_nodes, preds. intros Hx Hy Q. rewrite lookup_fmap. destruct (g !! x) as [s|] eqn:E; cbn in Q; [|set_solver].
  assert (F : filter (λ x0 : sig * gset sig, x0.1 ∉ l) g !! x = Some s) by (apply map_filter_lookup_Some; auto). rewrite F. cbn.
  apply elem_of_difference. split; [exact Q|]. rewrite elem_of_list_to_set. exact Hy.
Qed.
Lemma sort_sigs_perm l : sort_sigs l ≡ₚ l.
Proof. apply merge_sort_Permutation. Qed.
Lemma ready_elem g x : x ∈ ready g <-> node g x /\ preds g x = ∅.
Proof.
  unfold ready. rewrite sort_sigs_perm, elem_of_list_filter, elem_of_elements, elem_of_dom. unfold node, preds. split.
  - intros [E _]. rewrite E. eauto.
  - intros [[s E] P]. rewrite E in P |- *. cbn in P. subst s. eauto.
Qed.
Lemma ready_nodup g : NoDup (ready g).
Proof. unfold ready. rewrite sort_sigs_perm. apply NoDup_filter, NoDup_elements. Qed.

Section topo.
Context (all : gmap sig mop) (rd : gmap sig sig).
(** [y] must be output before [x]. *)
Definition edge (y x : sig) : Prop := exists o, all !! y = Some o /\ x ∈ succs all rd o.
Lemma succs_known o x : x ∈ succs all rd o -> is_Some (all !! x).
Proof.
  unfold succs. rewrite elem_of_app. intros [H|H]; [apply elem_of_list_filter in H; tauto|].
  destruct o as [d|r]; [|inversion H]. destruct (d_proof d); [apply elem_of_list_filter in H; tauto|inversion H].
Qed.
Definition all_nodes : gset sig := dom all.

Lemma build_deps_spec : (forall x, node (build_deps all rd) x <-> is_Some (all !! x)) /\
  (forall x y, y ∈ preds (build_deps all rd) x <-> edge y x).
Proof.
  unfold build_deps.
  assert (G : forall l g, (forall s o, (s, o) ∈ l -> all !! s = Some o) ->
    (forall x, node (foldl (fun g (x : sig * mop) => foldl (fun g y => add_dependency g x.1 y) (add_node g x.1) (succs all rd x.2)) g l) x <->
       node g x \/ (exists o, (x, o) ∈ l) \/ (exists s o, (s, o) ∈ l /\ x ∈ succs all rd o)) /\
    (forall x y, y ∈ preds (foldl (fun g (x : sig * mop) => foldl (fun g y => add_dependency g x.1 y) (add_node g x.1) (succs all rd x.2)) g l) x <->
       y ∈ preds g x \/ exists o, (y, o) ∈ l /\ x ∈ succs all rd o)).
  { induction l as [|[s o] l IH]; intros g A; cbn.
    - split; intros; setoid_rewrite elem_of_nil; naive_solver.
    - destruct (IH (foldl (fun g y => add_dependency g s y) (add_node g s) (succs all rd o))) as [I1 I2]; [intros; apply A; right; assumption|].
      split.
      + intros x. rewrite I1, add_deps_node, add_node_node. setoid_rewrite elem_of_cons. split.
        * intros [[[<- _]|[H|[<-|H]]]|[(o' & H)|(s' & o' & H)]]; eauto 10.
          right. right. exists s', o'. tauto.
        * intros [H|[(o' & [E|H])|(s' & o' & [E|H] & H')]]; [auto|injection E as -> ->; auto|right; left; eauto|injection E as -> ->; auto|].
          right. right. eauto.
      + intros x y. rewrite I2, add_deps_preds, add_node_preds. setoid_rewrite elem_of_cons. split.
        * intros [[[-> H]|H]|(o' & H)]; [right; eauto|auto|right; exists o'; tauto].
        * intros [H|(o' & [E|H] & H')]; [auto|injection E as -> ->; auto|right; eauto]. }
  destruct (G (map_to_list all) ∅) as [G1 G2]; [intros s o H; apply elem_of_map_to_list, H|]. split.
  - intros x. rewrite G1. split.
    + intros [H|[(o & H)|(s & o & _ & H)]].
      * unfold node in H. rewrite lookup_empty in H. destruct H as [? H]. discriminate.
      * apply elem_of_map_to_list in H. eauto.
      * eapply succs_known, H.
    + intros [o H]. right. left. exists o. apply elem_of_map_to_list, H.
  - intros x y. rewrite G2. unfold edge. setoid_rewrite elem_of_map_to_list. unfold preds. rewrite lookup_empty. cbn. set_solver.
Qed.

(** Seniority is a total order. *)
Lemma seniority_total : Total (seniority all).
Proof. intros a b. unfold seniority. lia. Qed.
Lemma seniority_trans : Transitive (seniority all).
Proof. intros a b c. unfold seniority. lia. Qed.

(** Invariant of the loop. *)
Record draining (g : deps) (acc : list sig) : Prop := {
  dr_nodup : NoDup acc;
  dr_nodes : forall x, node g x <-> is_Some (all !! x) /\ x ∉ acc;
  dr_acc : forall x, x ∈ acc -> is_Some (all !! x);
  dr_edges : forall x y, edge y x -> y ∉ acc -> y ∈ preds g x;
  dr_preds : forall x y, y ∈ preds g x -> node g x /\ node g y /\
    (edge y x \/ ((forall z, edge z y -> z ∈ acc) /\ rev_sig all y = true /\ x <> y /\ seniority all x y));
  dr_order : forall i x y, acc !! i = Some x -> edge y x -> exists j, j < i /\ acc !! j = Some y
}.

Lemma windows_node g l x : node (windows g l) x <-> node g x \/ (x ∈ l /\ 2 <= length l).
Proof.
  revert g. induction l as [|a l IH]; intros g; cbn [windows].
  - rewrite elem_of_nil. naive_solver.
  - destruct l as [|b l].
    + rewrite elem_of_list_singleton. cbn. split; [auto|intros [H|[_ H]]; [exact H|lia]].
    + rewrite IH, add_dep_node, !elem_of_cons. cbn. split.
      * intros [[->|[->|H]]|[H L]]; auto; right; (split; [tauto|lia]).
      * intros [H|[[->|[->|H]] _]]; auto. destruct l as [|c l]; [inversion H|]. right. split; [auto|cbn; lia].
Qed.
Lemma windows_preds g l x y : y ∈ preds (windows g l) x -> y ∈ preds g x \/ exists k, l !! k = Some x /\ l !! S k = Some y.
Proof.
  revert g. induction l as [|a l IH]; intros g H; cbn [windows] in H; [auto|]. destruct l as [|b l]; [auto|].
  apply IH in H as [H|(k & H1 & H2)].
  - apply add_dep_preds in H as [[-> ->]|H]; [right; exists 0; auto|auto].
  - right. exists (S k). auto.
Qed.
Lemma windows_preds_mono g l x y : y ∈ preds g x -> y ∈ preds (windows g l) x.
Proof.
  revert g. induction l as [|a l IH]; intros g H; cbn [windows]; [auto|]. destruct l as [|b l]; [auto|].
  apply IH. apply add_dep_preds. auto.
Qed.
Lemma nodes_node g l x : node (foldl add_node g l) x <-> node g x \/ x ∈ l.
Proof. revert g. induction l as [|a l IH]; intros g; cbn; [rewrite elem_of_nil; tauto|]. rewrite IH, add_node_node, elem_of_cons. naive_solver. Qed.
Lemma nodes_preds g l x : preds (foldl add_node g l) x = preds g x.
Proof. revert g. induction l as [|a l IH]; intros g; cbn; [reflexivity|]. rewrite IH, add_node_preds. reflexivity. Qed.
Definition requeue (g : deps) (l : list sig) : deps :=
  foldl (fun g x => match all !! x with
                    | Some o => foldl (fun g y => add_dependency g x y) g (succs all rd o)
                    | None => g
                    end) g l.
Lemma requeue_node g l x : node (requeue g l) x -> node g x \/ x ∈ l \/ exists y, y ∈ l /\ edge y x.
Proof.
  revert g. induction l as [|a l IH]; intros g H; cbn in H; [auto|]. apply IH in H as [H|[H|(y & H & E)]].
  - destruct (all !! a) as [o|] eqn:Q; [|auto]. apply add_deps_node in H as [[<- _]|[H|H]]; [right; left; left|right; right|auto].
    exists a. split; [left|]. exists o. auto.
  - right. left. right. exact H.
  - right. right. exists y. split; [right; exact H|exact E].
Qed.
Lemma requeue_node_mono g l x : node g x -> node (requeue g l) x.
Proof.
  revert g. induction l as [|a l IH]; intros g H; cbn; [auto|]. apply IH. destruct (all !! a); [|exact H]. apply add_deps_node. auto.
Qed.
Lemma requeue_preds g l x y : y ∈ preds (requeue g l) x <-> y ∈ preds g x \/ (y ∈ l /\ edge y x).
Proof.
  revert g. induction l as [|a l IH]; intros g; cbn; [rewrite elem_of_nil; tauto|]. rewrite IH, elem_of_cons.
  destruct (all !! a) as [o|] eqn:Q.
  - rewrite add_deps_preds. split.
    + intros [[[-> H]|H]|[H E]]; [|auto|auto]. right. split; [auto|]. exists o. auto.
    + intros [H|[[->|H] E]]; [auto| |auto]. destruct E as (o' & Q' & E). rewrite Q in Q'. injection Q' as <-. auto.
  - split; [intros [H|[H E]]; auto|]. intros [H|[[->|H] E]]; [auto| |auto]. destruct E as (o' & Q' & E). congruence.
Qed.

(** The two ways a round of the loop goes. *)
Lemma draining_all g acc : draining g acc -> draining (drop_nodes (ready g) g)
  (acc ++ sort_sigs (filter (fun x => rev_sig all x = false) (ready g)) ++ filter (fun x => rev_sig all x = true) (ready g)).
Proof.
  intros [D1 D2 D3 D4 D5 D6]. set (out := sort_sigs _ ++ _).
  assert (P : out ≡ₚ ready g).
  { unfold out. rewrite sort_sigs_perm. clear. induction (ready g) as [|x l IH]; [reflexivity|]. rewrite !filter_cons.
    destruct (decide (rev_sig all x = false)) as [E|E], (decide (rev_sig all x = true)) as [E'|E']; try congruence.
    - cbn. rewrite IH. reflexivity.
    - rewrite <- Permutation_middle, IH. reflexivity.
    - destruct (rev_sig all x); congruence. }
  assert (Hout : forall x, x ∈ out <-> x ∈ ready g) by (intros x; rewrite P; reflexivity).
  assert (Dis : forall x, x ∈ out -> x ∉ acc) by (intros x H; apply Hout, ready_elem in H as [H _]; apply D2 in H; tauto).
  constructor.
  - apply NoDup_app. split; [exact D1|]. split; [intros x H H'; exact (Dis x H' H)|]. rewrite P. apply ready_nodup.
  - intros x. rewrite drop_node, D2, elem_of_app, Hout. tauto.
  - intros x H. apply elem_of_app in H as [H|H]; [auto|]. apply Hout, ready_elem in H as [H _]. apply D2, H.
  - intros x y E N. rewrite elem_of_app, Hout in N. apply drop_preds'; [|tauto|apply D4; tauto].
    intros H. apply ready_elem in H as [_ H]. assert (y ∈ preds g x) by (apply D4; tauto). rewrite H in H0. set_solver.
  - intros x y H. apply drop_preds in H as (Hx & Hy & H). destruct (D5 _ _ H) as (A & B & C). rewrite !drop_node. split; [tauto|]. split; [tauto|].
    destruct C as [C|(C1 & C2)]; [auto|right]. split; [intros z Z; apply elem_of_app; auto|exact C2].
  - intros i x y E Ed. apply lookup_app_Some in E as [E|[L E]].
    + destruct (D6 _ _ _ E Ed) as (j & Lj & Ej). exists j. split; [exact Lj|]. apply lookup_app_l_Some, Ej.
    + apply elem_of_list_lookup_2, Hout, ready_elem in E as [_ E]. destruct (decide (y ∈ acc)) as [Y|Y].
      * apply elem_of_list_lookup in Y as [j Y]. exists j. split; [apply lookup_lt_Some in Y; lia|]. apply lookup_app_l_Some, Y.
      * apply (D4 _ _ Ed) in Y. rewrite E in Y. set_solver.
Qed.
Lemma draining_defer g acc first rest : draining g acc ->
  merge_sort (seniority all) (filter (fun x => rev_sig all x = true) (ready g)) = first :: rest -> 1 <= length rest ->
  draining (requeue (if length rest =? 1 then foldl add_node (windows (drop_nodes (ready g) g) rest) rest else windows (drop_nodes (ready g) g) rest) rest)
    (acc ++ sort_sigs (filter (fun x => rev_sig all x = false) (ready g)) ++ [first]).
Proof.
  intros [D1 D2 D3 D4 D5 D6] M LR. set (h := drop_nodes (ready g) g). set (h1 := windows h rest).
  set (h2 := if length rest =? 1 then foldl add_node h1 rest else h1). set (out := sort_sigs _ ++ [first]).
  pose proof (StronglySorted_merge_sort (seniority all) (Transitive0 := seniority_trans) (Total0 := seniority_total) (filter (fun x => rev_sig all x = true) (ready g))) as Srt.
  rewrite M in Srt.
  assert (P : filter (fun x => rev_sig all x = true) (ready g) ≡ₚ first :: rest) by (rewrite <- M; symmetry; apply merge_sort_Permutation).
  assert (ND : NoDup (first :: rest)) by (rewrite <- P; apply NoDup_filter, ready_nodup).
  assert (Hr : forall x, x ∈ first :: rest <-> x ∈ ready g /\ rev_sig all x = true).
  { intros x. rewrite <- P, elem_of_list_filter. tauto. }
  assert (Hout : forall x, x ∈ out <-> x ∈ ready g /\ x ∉ rest).
  { intros x. unfold out. rewrite elem_of_app, sort_sigs_perm, elem_of_list_filter, elem_of_list_singleton.
    split.
    - intros [[H1 H2]| ->].
      + split; [exact H2|]. intros H. assert (x ∈ first :: rest) by (right; exact H). apply Hr in H0 as [_ H0]. congruence.
      + split; [apply Hr; left|]. apply NoDup_cons in ND. tauto.
    - intros [H1 H2]. destruct (rev_sig all x) eqn:E; [right|left; auto]. assert (x ∈ first :: rest) by (apply Hr; auto).
      apply elem_of_cons in H as [->|H]; [reflexivity|contradiction]. }
  assert (Hh2n : forall x, node h2 x <-> node h x \/ x ∈ rest).
  { intros x. unfold h2, h1. destruct (Nat.eqb_spec (length rest) 1) as [L1|L1].
    - rewrite nodes_node, windows_node. naive_solver.
    - rewrite windows_node. split; [tauto|]. intros [H|H]; [auto|]. right. split; [exact H|lia]. }
  assert (Hh2p : forall x, preds h2 x = preds h1 x).
  { intros x. unfold h2. destruct (length rest =? 1); [apply nodes_preds|reflexivity]. }
  assert (Hsucc : forall x y, y ∈ ready g -> edge y x -> node h x).
  { intros x y Hy E. apply ready_elem in Hy as [Hy P0]. assert (Ny : y ∉ acc) by (apply D2 in Hy; tauto). pose proof (D4 _ _ E Ny) as Q. destruct (D5 _ _ Q) as [A _].
    apply drop_node. split; [exact A|]. intros R. apply ready_elem in R as [_ R]. rewrite R in Q. set_solver. }
  assert (Hn : forall x, node (requeue h2 rest) x <-> node h x \/ x ∈ rest).
  { intros x. split.
    - intros H. apply requeue_node in H as [H|[H|(y & Hy & E)]]; [apply Hh2n, H|auto|]. left. eapply Hsucc; [|exact E].
      apply Hr. right. exact Hy.
    - intros H. apply requeue_node_mono, Hh2n, H. }
  assert (Dis : forall x, x ∈ out -> x ∉ acc) by (intros x H; apply Hout in H as [H _]; apply ready_elem in H as [H _]; apply D2 in H; tauto).
  assert (Hgone : forall x z, x ∈ ready g -> edge z x -> z ∈ acc).
  { intros x z Hx E. apply ready_elem in Hx as [_ Hx]. destruct (decide (z ∈ acc)) as [Z|Z]; [exact Z|]. apply (D4 _ _ E) in Z. rewrite Hx in Z. set_solver. }
  constructor.
  - apply NoDup_app. split; [exact D1|]. split; [intros x H H'; exact (Dis x H' H)|]. unfold out. apply NoDup_app. split.
    { rewrite sort_sigs_perm. apply NoDup_filter, ready_nodup. } split.
    { intros x H H'. apply elem_of_list_singleton in H' as ->. rewrite sort_sigs_perm in H. apply elem_of_list_filter in H as [H _].
      assert (first ∈ first :: rest) by left. apply Hr in H0 as [_ H0]. congruence. }
    apply NoDup_singleton.
  - intros x. rewrite Hn. unfold h. rewrite drop_node, D2, elem_of_app, Hout. split.
    + intros [[[A B] C]|H]; [tauto|]. assert (R : x ∈ ready g) by (apply Hr; right; exact H). pose proof R as R'. apply ready_elem in R' as [R' _]. apply D2 in R'. tauto.
    + intros [A B]. destruct (decide (x ∈ rest)); [auto|]. left. tauto.
  - intros x H. apply elem_of_app in H as [H|H]; [auto|]. apply Hout in H as [H _]. apply ready_elem in H as [H _]. apply D2, H.
  - intros x y E N. rewrite elem_of_app, Hout in N. apply requeue_preds. destruct (decide (y ∈ rest)) as [Y|Y]; [auto|]. left. rewrite Hh2p.
    apply windows_preds_mono. apply drop_preds'; [|tauto|apply D4; tauto].
    intros H. apply ready_elem in H as [_ H]. assert (Q : y ∈ preds g x) by (apply D4; tauto). rewrite H in Q. set_solver.
  - intros x y H. rewrite !Hn. apply requeue_preds in H as [H|[H E]].
    + rewrite Hh2p in H. apply windows_preds in H as [H|(k & H1 & H2)].
      * apply drop_preds in H as (Hx & Hy & H). destruct (D5 _ _ H) as (A & B & C). unfold h. rewrite !drop_node. split; [tauto|]. split; [tauto|].
        destruct C as [C|(C1 & C2)]; [auto|right]. split; [intros z Z; apply elem_of_app; auto|exact C2].
      * assert (Hx : x ∈ rest) by (eapply elem_of_list_lookup_2; exact H1). assert (Hy : y ∈ rest) by (eapply elem_of_list_lookup_2; exact H2).
        split; [auto|]. split; [auto|]. right. split.
        { intros z Z. apply elem_of_app. left. eapply Hgone; [|exact Z]. apply Hr. right. exact Hy. }
        split; [apply (Hr y); right; exact Hy|]. split.
        { intros ->. apply NoDup_cons in ND as [_ ND]. pose proof (NoDup_lookup _ _ _ _ ND H1 H2). lia. }
        apply StronglySorted_inv in Srt as [Srt _]. clear - Srt H1 H2. revert k H1 H2. induction Srt as [|a l S IH F]; intros k H1 H2; [discriminate|].
        destruct k as [|k]; [|eapply IH; [exact H1|exact H2]]. injection H1 as ->. rewrite Forall_forall in F. apply F. eapply elem_of_list_lookup_2. exact H2.
    + split; [left; eapply Hsucc; [|exact E]; apply Hr; right; exact H|]. auto.
  - intros i x y E Ed. apply lookup_app_Some in E as [E|[L E]].
    + destruct (D6 _ _ _ E Ed) as (j & Lj & Ej). exists j. split; [exact Lj|]. apply lookup_app_l_Some, Ej.
    + apply elem_of_list_lookup_2, Hout in E as [E _]. pose proof (Hgone _ _ E Ed) as Y.
      apply elem_of_list_lookup in Y as [j Y]. exists j. split; [apply lookup_lt_Some in Y; lia|]. apply lookup_app_l_Some, Y.
Qed.

Lemma draining_start : draining (build_deps all rd) [].
Proof.
  destruct build_deps_spec as [B1 B2]. constructor.
  - apply NoDup_nil_2.
  - intros x. rewrite B1, elem_of_nil. tauto.
  - intros x H. inversion H.
  - intros x y E _. apply B2, E.
  - intros x y H. apply B2 in H. rewrite !B1. split; [destruct H as (o & _ & H); eapply succs_known, H|].
    split; [destruct H as (o & H & _); eauto|auto].
  - intros i x y E. discriminate.
Qed.
Lemma draining_length g acc : draining g acc -> length acc <= size all /\ (g <> ∅ -> length acc < size all).
Proof.
  intros D. rewrite <- size_dom.
  assert (S : (list_to_set acc : gset sig) ⊆ dom all).
  { intros x H. apply elem_of_list_to_set in H. apply elem_of_dom, (dr_acc _ _ D), H. }
  rewrite <- (size_list_to_set acc (C := gset sig)) by apply (dr_nodup _ _ D). split; [apply subseteq_size, S|].
  intros N. apply map_choose in N as (x & s & E). assert (Nx : node g x) by (exists s; exact E).
  apply (dr_nodes _ _ D) in Nx as [A B]. apply subset_size. split; [exact S|]. intros H. apply B.
  assert (x ∈ (list_to_set acc : gset sig)) by (apply H, elem_of_dom, A). apply elem_of_list_to_set in H0. exact H0.
Qed.
Lemma drain_spec n g acc : draining g acc -> size all - length acc <= n ->
  exists l g', drain n all rd g acc = Some l /\ draining g' l /\ (g' = ∅ \/ ready g' = []).
Proof.
  revert g acc. induction n as [|n IH]; intros g acc D L; cbn [drain].
  - destruct (decide (g = ∅)) as [->|N]; [exists acc, ∅; auto|]. apply draining_length in D as [_ D]. specialize (D N). lia.
  - destruct (decide (g = ∅)) as [->|N]; [exists acc, ∅; auto|]. pose proof (proj2 (draining_length _ _ D) N) as Lt.
    destruct (ready g) as [|b0 bs] eqn:R; [exists acc, g; auto|]. rewrite <- R.
    pose proof (draining_all _ _ D) as DA. cbn zeta. destruct (Nat.leb_spec (length (filter (fun x => rev_sig all x = true) (ready g))) 1) as [L1|L1].
    + rewrite <- app_assoc. apply IH; [exact DA|].
      assert (Ln : length (acc ++ sort_sigs (filter (λ x : sig, rev_sig all x = false) (ready g)) ++ filter (λ x : sig, rev_sig all x = true) (ready g)) > length acc); [|lia].
      rewrite !app_length. rewrite (Permutation_length (sort_sigs_perm _)). rewrite R. rewrite !filter_cons.
      destruct (decide (rev_sig all b0 = false)) as [E|E], (decide (rev_sig all b0 = true)) as [E'|E']; cbn; try lia.
      destruct (rev_sig all b0); congruence.
    + destruct (merge_sort (seniority all) _) as [|first rest] eqn:M.
      * pose proof (merge_sort_Permutation (seniority all) (filter (λ x : sig, rev_sig all x = true) (ready g))) as P. rewrite M in P.
        apply Permutation_nil in P. rewrite P in L1. cbn in L1. lia.
      * pose proof (merge_sort_Permutation (seniority all) (filter (λ x : sig, rev_sig all x = true) (ready g))) as P. rewrite M in P.
        apply Permutation_length in P. cbn in P. rewrite <- app_assoc.
        apply IH; [apply (draining_defer g acc first rest D M); lia|]. rewrite !app_length. cbn. lia.
Qed.
Lemma edge_dec y x : Decision (edge y x).
Proof.
  destruct (all !! y) as [o|] eqn:E.
  - destruct (decide (x ∈ succs all rd o)) as [H|H]; [left; exists o; auto|right]. intros (o' & E' & H'). congruence.
  - right. intros (o' & E' & _). congruence.
Qed.
Lemma drain_complete g acc (f : sig -> nat) : (forall x y, edge y x -> f y < f x) -> draining g acc -> ready g = [] -> g = ∅.
Proof.
  intros F D R. destruct (decide (g = ∅)) as [E|N]; [exact E|exfalso].
  pose (isolated := fun x => Forall (fun z => ~ edge z x) (elements (dom g))).
  assert (Hdec : forall x, Decision (isolated x)).
  { intros x. apply Forall_dec. intros z. destruct (edge_dec z x) as [H|H]; [right|left]; tauto. }
  assert (Hiso : forall x, isolated x <-> forall z, edge z x -> z ∈ acc).
  { intros x. unfold isolated. rewrite Forall_forall. split.
    - intros H z E. destruct (decide (z ∈ acc)) as [Z|Z]; [exact Z|exfalso]. apply (H z); [|exact E]. apply elem_of_elements, elem_of_dom.
      apply (dr_nodes _ _ D). split; [destruct E as (o & E & _); eauto|exact Z].
    - intros H z Hz E. apply elem_of_elements, elem_of_dom in Hz. apply (dr_nodes _ _ D) in Hz as [_ Hz]. apply Hz, H, E. }
  assert (Ne : (dom g : gset sig) <> ∅) by (intros Q; apply N; exact (dom_empty_inv_L g Q)).
  assert (T1 : Transitive (fun a b => f a <= f b)) by (intros a b c; lia).
  destruct (minimal_exists_L (fun a b => f a <= f b) (H7 := fun a b => decide (f a <= f b)) (dom g : gset sig) Ne) as (m & Hm & Mm).
  assert (Im : isolated m).
  { apply Hiso. intros z E. destruct (decide (z ∈ acc)) as [Z|Z]; [exact Z|exfalso]. pose proof (F _ _ E) as L.
    assert (Hz : z ∈ dom g) by (apply elem_of_dom, (dr_nodes _ _ D); split; [destruct E as (o & E & _); eauto|exact Z]).
    specialize (Mm z Hz). cbn in Mm. lia. }
  pose (D0 := filter isolated (dom g : gset sig)).
  assert (N0 : D0 <> ∅). { intros Q. assert (m ∈ D0) by (apply elem_of_filter; auto). rewrite Q in H. exact (not_elem_of_empty _ H). }
  assert (T2 : Transitive (flip (seniority all))) by (intros a b c H1 H2; exact (seniority_trans _ _ _ H2 H1)).
  destruct (minimal_exists_L (flip (seniority all)) (H7 := fun a b => decide (seniority all b a)) D0 N0) as (x & Hx & Mx).
  apply elem_of_filter in Hx as [Ix Hx]. apply elem_of_dom in Hx.
  assert (Px : preds g x <> ∅). { intros Q. assert (x ∈ ready g) by (apply ready_elem; auto). rewrite R in H. inversion H. }
  apply set_choose_L in Px as (y & Hy). destruct (dr_preds _ _ D _ _ Hy) as (_ & Ny & [E|(E & _ & Nxy & Sxy)]).
  - pose proof (proj1 (Hiso x) Ix y E) as A. apply (dr_nodes _ _ D) in Ny. tauto.
  - assert (Y : y ∈ D0) by (apply elem_of_filter; split; [apply Hiso, E|apply elem_of_dom, Ny]).
    specialize (Mx y Y Sxy). unfold flip, seniority in Mx, Sxy. lia.
Qed.
End topo.
