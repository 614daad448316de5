(** Replaying operations that were made as [ReadWorld] says, and networks in which they all are. *)
From Coq Require Import Arith Lia.
From stdpp Require Import base list gmap relations.
From Verif Require Import ResModel KeysModel KeysProofs TreeMathModel TreeMathSpec TreeMathProofs TreeModel TreeSpec TreeOps TreeView TreeProofs TreeInv TreeRun
  OpsModel OpsSpec OpsInv OpsProofs OpsPropsProofs OpsAlone CgkaModel CgkaSpec CgkaProofs CgkaReplay CgkaConverge CgkaRow NetSpec NetProofs NetKeys GrowSpec CgkaGrow GrowNet
  ReadSpec ReadTree ReadWorld.

(** ** More operations *)
Section more.
Context (ops ops' : gmap digest signed_op) (Sub : ops ⊆ ops').
Context (Cl : forall p h, named ops p h -> is_Some (ops !! p)).

Lemma in_order_down x y : is_Some (ops !! x) -> is_Some (ops !! y) -> in_order ops' x y -> in_order ops x y.
Proof.
  intros Hx Hy [H|[H|H]]; [left; exact H|right; left|right; right]; [apply (before_same ops ops' x y Sub Cl Hy), H|apply (before_same ops ops' y x Sub Cl Hx), H].
Qed.
Lemma in_turn_down : changes_in_turn ops' -> changes_in_turn ops.
Proof. intros AT a o x E A Hx. apply in_order_down; [exact Hx|eauto|]. eapply AT; [eapply lookup_weaken; eauto|exact A|destruct Hx as [q Hx]; exists q; eapply lookup_weaken; eauto]. Qed.
Lemma one_writer_down : one_writer ops' -> one_writer ops.
Proof. intros OW x y o o' id pc pc' ps ps' E E' A A'. apply in_order_down; [eauto|eauto|]. eapply OW; [eapply lookup_weaken; [exact E|exact Sub]|eapply lookup_weaken; [exact E'|exact Sub]|eauto|eauto]. Qed.
Lemma fresh_keys_down : fresh_keys ops' -> fresh_keys ops.
Proof. intros FK x y o o' k E E' A A'. eapply FK; [eapply lookup_weaken; [exact E|exact Sub]|eapply lookup_weaken; [exact E'|exact Sub]|eauto|eauto]. Qed.

Lemma look x o : is_Some (ops !! x) -> ops' !! x = Some o <-> ops !! x = Some o.
Proof. intros [o' E]. rewrite (lookup_weaken _ _ _ _ E Sub), E. reflexivity. Qed.
Lemma seat_up (P : digest -> Prop) id i : (forall x, P x -> is_Some (ops !! x)) -> seat ops' P id i <-> seat ops P id i.
Proof.
  intros K. split; intros (a & o & pk & ps & qs & Pa & E & Eo & R); exists a, o, pk, ps, qs; (split; [exact Pa|]);
    (split; [apply (look a o (K _ Pa)), E|]); (split; [exact Eo|]); intros r o' j ks ps' Pr Er Eor.
  - apply (before_same ops ops' r a Sub Cl (K _ Pa)). eapply R; [exact Pr|apply (look r o' (K _ Pr)), Er|exact Eor].
  - apply (before_same ops ops' r a Sub Cl (K _ Pa)). eapply R; [exact Pr|apply (look r o' (K _ Pr)), Er|exact Eor].
Qed.
Lemma past_known x y : came_before ops y x -> is_Some (ops !! y).
Proof. intros B. destruct B as [a b Q|a b c Q _]; eapply Cl; exact Q. Qed.
Lemma touches_up x i' : is_Some (ops !! x) -> touches ops' x i' <-> touches ops x i'.
Proof.
  intros H.
  assert (Q : forall id j, seat ops' (fun y => came_before ops' y x) id j <-> seat ops (fun y => came_before ops y x) id j).
  { intros id j. rewrite <- (seat_up (fun y => came_before ops y x)) by (apply past_known).
    apply seat_ext. intros m o _ _. apply (before_same ops ops' m x Sub Cl H). }
  unfold touches. split; intros (o & E & B); exists o; (split; [apply (look x o H), E|]); destruct (so_op o); try exact B;
    (destruct B as [B|[B1 B2]]; [auto|right]); (split; [exact B1|]); intros id' j L Sj; eapply B2; [exact L|apply Q, Sj|exact L|apply Q, Sj].
Qed.
Lemma beneath_up_ops x k j : is_Some (ops !! x) -> beneath ops' x k j <-> beneath ops x k j.
Proof. intros H. unfold beneath. split; intros (i' & B & A); exists i'; (split; [|exact A]); apply (touches_up x i' H), B. Qed.
Lemma version_up x k v : is_Some (ops !! x) -> version_of ops' x k v <-> version_of ops x k v.
Proof.
  intros H. unfold version_of. split; intros (o & id & pc & ps & n & E & B); exists o, id, pc, ps, n; (split; [|exact B]); apply (look x o H), E.
Qed.
Lemma gives_up x id pk : is_Some (ops !! x) -> gives ops' x id pk <-> gives ops x id pk.
Proof. intros H. unfold gives. split; intros (o & E & B); exists o; (split; [|exact B]); apply (look x o H), E. Qed.
Lemma live_up D k j x : closed ops D -> live ops' D k j x <-> live ops D k j x.
Proof.
  intros [C _]. split; intros [A B L]; (split; [exact A|apply (beneath_up_ops x k j (C _ A)), B|]); intros y Hy By Q;
    (apply (L y Hy); [apply (beneath_up_ops y k j (C _ Hy)), By|]); apply (before_same ops ops' x y Sub Cl (C _ Hy)), Q.
Qed.
Lemma adds_up D : closed ops D -> adds ops' D = adds ops D.
Proof.
  intros [C _]. apply set_eq. intros x. rewrite !elem_of_adds. split; intros [Hx (o & E & A)]; (split; [exact Hx|]); exists o; (split; [|exact A]); apply (look x o (C _ Hx)), E.
Qed.
Lemma describes_up D t h : closed ops D -> describes ops D t h -> describes ops' D t h.
Proof.
  intros C [Sh Ids St Lo To Cn Ta Lf In No]. pose proof (proj1 C) as K. constructor.
  - exact Sh.
  - intros id i. rewrite Ids. symmetry. apply seat_up. exact K.
  - exact St.
  - exact Lo.
  - exact To.
  - rewrite (adds_up D C). exact Cn.
  - destruct Ta as (A & B & Q). split; [|split; [exact B|]].
    + intros a o id pk i ps qs Ha E. eapply A; [exact Ha|]. apply (look a o (K _ Ha)), E.
    + destruct Q as [Q|(a & o & id & pk & i & ps & qs & Ha & E & Q)]; [auto|]. right. exists a, o, id, pk, i, ps, qs. split; [exact Ha|]. split; [apply (look a o (K _ Ha)), E|exact Q].
  - intros i id nk. rewrite Lf. split; intros (x & pk & L & G & Q); exists x, pk.
    + split; [apply (live_up D 0 i x C), L|]. split; [apply (gives_up x id pk (K _ (lv_in _ _ _ _ _ L))), G|exact Q].
    + split; [apply (live_up D 0 i x C), L|]. split; [apply (gives_up x id pk (K _ (lv_in _ _ _ _ _ L))), G|exact Q].
  - intros k j s E. destruct (In k j s E) as (A & B & M). split; [exact A|]. split; [exact B|]. intros v. rewrite M.
    split; intros (u & L & V); exists u; (split; [apply (live_up D _ j u C), L|]); apply (version_up u k v (K _ (lv_in _ _ _ _ _ L))), V.
  - intros k j E u v L V. apply (No k j E u v); [apply (live_up D _ j u C), L|]. apply (version_up u k v (K _ (lv_in _ _ _ _ _ L))), V.
Qed.
Lemma past_up x D : is_Some (ops !! x) -> past ops x D -> past ops' x D.
Proof. intros H P y. rewrite (P y). symmetry. apply (before_same ops ops' y x Sub Cl H). Qed.
Lemma past_closed_gen x D : past ops x D -> closed ops D.
Proof.
  intros P. split.
  - intros y Hy. apply P in Hy. destruct Hy as [a b Q|a b c Q _]; eapply Cl; exact Q.
  - intros y p Hy N. apply P. apply P in Hy. eapply tc_l; eauto.
Qed.
Lemma well_made_up x o : ops !! x = Some o -> well_made ops x (so_op o) -> well_made ops' x (so_op o).
Proof.
  intros E. unfold well_made. destruct (so_op o) as [id pk i ps qs|id i ks ps|id pc ps].
  - intros (D0 & P & Hi). exists D0. split; [apply past_up; eauto|]. destruct Hi as [Hi|(t0 & h0 & Ds & Q)]; [auto|right]. exists t0, h0. split; [|exact Q].
    apply describes_up; [|exact Ds]. eapply past_closed_gen; eauto.
  - intros (D0 & t0 & h0 & P & Ds & Q). exists D0, t0, h0. split; [apply past_up; eauto|]. split; [|exact Q]. apply describes_up; [|exact Ds]. eapply past_closed_gen; eauto.
  - intros (D0 & t0 & h0 & i & p0 & pk & vs & rng & rng' & P & Ds & Q). exists D0, t0, h0, i, p0, pk, vs, rng, rng'. split; [apply past_up; eauto|].
    split; [|exact Q]. apply describes_up; [|exact Ds]. eapply past_closed_gen; eauto.
Qed.
End more.

(** ** Replaying *)
Section replay.
Context (ops : gmap digest signed_op) (OK : ops_ok ops).
Context (CA : forall x o, ops !! x = Some o -> well_made ops x (so_op o)).
Context (AT : changes_in_turn ops) (OW : one_writer ops) (FK : fresh_keys ops).

Definition done_set (done : list signed_op) : gset digest := list_to_set (map so_hash done).
Lemma elem_of_done done x : x ∈ done_set done <-> exists o, o ∈ done /\ so_hash o = x.
Proof.
  unfold done_set. rewrite elem_of_list_to_set, elem_of_list_fmap. split; intros (o & A & B); exists o; auto.
Qed.
Record described (c : cgka) (done : list signed_op) : Prop := {
  dc_tree : exists h, describes ops (done_set done) (c_tree c) h;
  dc_closed : closed ops (done_set done);
  dc_ops x : contains_op (c_graph c) x = true <-> x ∈ done_set done;
  dc_sub : g_ops (c_graph c) ⊆ ops;
  dc_reach : graph_reachable (c_graph c)
}.

(** [op] comes right after the operations [done]. *)
Definition next_up (done : list signed_op) (op : signed_op) : Prop :=
  ops !! so_hash op = Some op /\ so_hash op ∉ done_set done /\ forall p, p ∈ op_preds (so_op op) -> p ∈ done_set done.
Fixpoint next_seq (done l : list signed_op) : Prop :=
  match l with
  | [] => True
  | op :: l => next_up done op /\ next_seq (done ++ [op]) l
  end.
Lemma next_seq_app a : forall done b, next_seq done (a ++ b) -> next_seq done a /\ next_seq (done ++ a) b.
Proof.
  induction a as [|x a IH]; intros done b; cbn; [rewrite app_nil_r; auto|]. intros [P Ps]. apply IH in Ps as [A B]. rewrite <- app_assoc in B. auto.
Qed.
Lemma next_seq_all l : forall done, (forall a o b, l = a ++ o :: b -> next_up (done ++ a) o) -> next_seq done l.
Proof.
  induction l as [|o l IH]; intros done H; [exact I|]. split.
  - rewrite <- (app_nil_r done). apply (H [] o l). reflexivity.
  - apply IH. intros a o' b ->. rewrite <- app_assoc. apply (H (o :: a) o' b). reflexivity.
Qed.
Lemma done_snoc done op : done_set (done ++ [op]) = done_set done ∪ {[ so_hash op ]}.
Proof. unfold done_set. rewrite map_app, list_to_set_app_L. cbn. set_solver. Qed.

Lemma described_next_closed D x : closed ops D -> is_Some (ops !! x) -> (forall p, named ops p x -> p ∈ D) -> closed ops (D ∪ {[ x ]}).
Proof.
  intros [C1 C2] K Pr. split.
  - intros y. rewrite elem_of_union, elem_of_singleton. intros [H| ->]; auto.
  - intros y p. rewrite !elem_of_union, !elem_of_singleton. intros [H| ->] Np; left; eauto.
Qed.
Lemma describes_next D t h x o : describes ops D t h -> closed ops D -> x ∉ D -> ops !! x = Some o -> (forall p, named ops p x -> p ∈ D) ->
  exists t' h', tree_apply t (so_op o) = Ok t' /\ describes ops (D ∪ {[ x ]}) t' h'.
Proof.
  intros Ds C N E Pr. destruct (so_op o) as [id pk i ps qs|id i ks ps|id pc ps] eqn:Eo; rewrite <- Eo.
  - eapply describes_add; eauto.
  - destruct (describes_remove ops OK CA AT OW FK _ _ _ _ _ _ _ _ _ Ds C N E Eo Pr) as (t' & A & B). eauto.
  - destruct (describes_update ops OK CA AT OW FK _ _ _ _ _ _ _ _ Ds C N E Eo Pr) as (t' & A & B). eauto.
Qed.
Lemma described_op c done op : described c done -> next_up done op -> exists c', apply_operation c op = Ok c' /\ described c' (done ++ [op]).
Proof.
  intros [[h Ds] C Kn Su Rg] (E & N & Pr). rewrite apply_operation_eq.
  destruct (contains_op (c_graph c) (so_hash op)) eqn:Ec; [exfalso; apply N, Kn, Ec|].
  assert (Pr' : forall p, named ops p (so_hash op) -> p ∈ done_set done).
  { intros p (o & Eo & Hp). rewrite E in Eo. injection Eo as <-. auto. }
  assert (Q : exists t' h', tree_apply (c_tree c) (so_op op) = Ok t' /\ describes ops (done_set done ∪ {[ so_hash op ]}) t' h') by (eapply describes_next; eauto).
  destruct Q as (t' & h' & Et & Ds'). rewrite Et. cbn [rbind]. eexists. split; [reflexivity|]. rewrite <- done_snoc in Ds'. constructor; cbn [c_tree c_graph set_graph set_tree].
  - eauto.
  - destruct C as [C1 C2]. split.
    + intros x. rewrite done_snoc, elem_of_union, elem_of_singleton. intros [H| ->]; [auto|eauto].
    + intros x p. rewrite done_snoc, !elem_of_union, !elem_of_singleton. intros [H| ->] Np; left; eauto.
  - intros x. rewrite contains_add_op, Kn, done_snoc, elem_of_union, elem_of_singleton. reflexivity.
  - unfold add_op, add_op_and_update_heads. cbn [g_ops]. apply map_subseteq_spec. intros x o Q. apply lookup_insert_Some in Q as [[<- <-]|[_ Q]]; [exact E|]. eapply lookup_weaken; eauto.
  - apply gr_remote; [exact Rg|exact Ec|]. apply bool_decide_eq_true. intros p Hp. apply Pr, Kn in Hp. apply bool_decide_eq_true in Hp. exact Hp.
Qed.
Lemma described_ops l : forall c done, described c done -> next_seq done l -> exists c', apply_operations c l = Ok c' /\ described c' (done ++ l).
Proof.
  induction l as [|op l IH]; intros c done Dc Ns; cbn [apply_operations]; [exists c; rewrite app_nil_r; auto|].
  destruct Ns as [N1 N2]. destruct (described_op _ _ _ Dc N1) as (c1 & E1 & D1). rewrite E1. cbn [rbind].
  destruct (IH _ _ D1 N2) as (c' & E' & D'). exists c'. rewrite <- app_assoc in D'. auto.
Qed.

Context (rorder : gset (member_id * nat) -> list (member_id * nat)).
Definition plain_epoch (e : list signed_op) : Prop := (exists o, e = [o]) \/ forall o, o ∈ e -> is_update (so_op o) = true.
Lemma described_epoch c done e : described c done -> plain_epoch e -> next_seq done e -> exists c', apply_epoch rorder c e = Ok c' /\ described c' (done ++ e).
Proof.
  intros Dc Pe Ns. destruct e as [|op [|op' e]].
  - destruct (described_ops [] c done Dc Ns) as (c' & E & D). exists c'. auto.
  - destruct Ns as [N1 _]. apply described_op; assumption.
  - destruct Pe as [[o Q]|Pe]; [discriminate|]. unfold apply_epoch.
    replace (forallb (fun op => is_update (so_op op)) (op :: op' :: e)) with true; [apply described_ops; assumption|].
    symmetry. apply forallb_forall. intros x Hx. apply Pe, elem_of_list_In, Hx.
Qed.
Lemma described_epochs es : forall c done, described c done -> (forall e, e ∈ es -> plain_epoch e) -> next_seq done (concat es) ->
  exists c', apply_epochs rorder c es = Ok c' /\ described c' (done ++ concat es).
Proof.
  induction es as [|e es IH]; intros c done Dc Pe Ns; cbn [apply_epochs concat]; [exists c; rewrite app_nil_r; auto|].
  cbn [concat] in Ns. apply next_seq_app in Ns as [N1 N2]. destruct (described_epoch c done e Dc (Pe e ltac:(left)) N1) as (c1 & E1 & D1). rewrite E1. cbn [rbind].
  destruct (IH _ _ D1) as (c' & E' & D'); [intros e' He'; apply Pe; right; exact He'|exact N2|]. exists c'. rewrite app_assoc. auto.
Qed.

Lemma no_preds_first x o : ops !! x = Some o -> op_preds (so_op o) = ∅ -> forall y, ~ came_before ops y x.
Proof.
  intros E Z y B. apply tc_last in B as [(o' & E' & H)|(z & _ & (o' & E' & H))]; rewrite E in E'; injection E' as <-; rewrite Z in H; set_solver.
Qed.

Lemma described_init id pk init c0 : ops !! so_hash init = Some init -> so_op init = init_add id pk -> cgka_from_init id pk init = Ok c0 -> described c0 [init].
Proof.
  intros E Eo. unfold cgka_from_init. destruct (tree_new_spec id pk) as (t & Et & S & N & Ids & L & In). rewrite Et. cbn [rbind]. intros Q. injection Q as <-.
  assert (EP : op_preds (so_op init) = ∅) by (rewrite Eo; reflexivity).
  assert (Ed : done_set [init] = {[ so_hash init ]}) by (unfold done_set; cbn; set_solver).
  assert (NB : forall y, ~ came_before ops y (so_hash init)) by (eapply no_preds_first; eauto).
  assert (Lv : forall k j x, live ops {[ so_hash init ]} k j x <-> x = so_hash init /\ j = anc 0 k).
  { intros k j x. split.
    - intros [A (i' & (o & E' & B) & Q) _]. apply elem_of_singleton in A as ->. rewrite E in E'. injection E' as <-. rewrite Eo in B. cbn in B. subst i' j. auto.
    - intros [-> ->]. split; [set_solver| |].
      + exists 0. split; [|reflexivity]. exists init. rewrite Eo. cbn. auto.
      + intros y Hy _. apply elem_of_singleton in Hy as ->. apply NB. }
  constructor; cbn [c_tree c_graph]; rewrite ?Ed.
  - exists 1. constructor.
    + exact S.
    + intros id' i. rewrite Ids, lookup_singleton_Some. split.
      * intros [<- <-]. exists (so_hash init), init, pk, [], []. split; [set_solver|]. split; [exact E|]. split; [exact Eo|].
        intros r o' j ks ps' Hr Er Eor. exfalso. apply elem_of_singleton in Hr as ->. rewrite E in Er. injection Er as <-. rewrite Eo in Eor. discriminate.
      * intros (a & o & pk' & ps & qs & Ha & Ea & Q & _). apply elem_of_singleton in Ha as ->. rewrite E in Ea. injection Ea as <-. rewrite Eo in Q. injection Q as <- _ <- _ _. auto.
    + intros id' i. rewrite Ids, lookup_singleton_Some, L. destruct (decide (i = 0)) as [-> |Ni].
      * split; [intros [<- _]; eauto|]. intros [nk Q]. injection Q as <- _. auto.
      * split; [intros [_ Z]; congruence|]. intros [nk Q]. discriminate.
    + intros id' i. rewrite Ids, lookup_singleton_Some, N. intros [_ <-]. lia.
    + exists id, 0. rewrite Ids, lookup_singleton, N. auto.
    + rewrite N. replace (adds ops {[so_hash init]}) with ({[so_hash init]} : gset digest); [rewrite size_singleton; reflexivity|].
      apply set_eq. intros x. rewrite elem_of_adds, elem_of_singleton. split; [|tauto]. intros ->. split; [reflexivity|]. exists init. rewrite Eo. auto.
    + split; [|auto]. intros a o id' pk' i ps qs Ha Ea Q. apply elem_of_singleton in Ha as ->. rewrite E in Ea. injection Ea as <-. rewrite Eo in Q. injection Q as _ _ <- _ _. cbn. lia.
    + intros i id' nk. rewrite L. split.
      * destruct (decide (i = 0)) as [-> |]; [|discriminate]. intros Q. injection Q as <- <-. exists (so_hash init), pk. split; [apply Lv; rewrite anc_0; auto|].
        split; [|reflexivity]. exists init. split; [exact E|]. left. eauto.
      * intros (x & pk' & Lx & (o & Ex & G) & ->). apply Lv in Lx as [-> ->]. rewrite E in Ex. injection Ex as <-. rewrite Eo in G. rewrite anc_0.
        destruct G as [(? & ? & ? & G)|(? & ? & G & _)]; [injection G as <- <- _ _ _; reflexivity|discriminate].
    + intros k j s. rewrite In. discriminate.
    + intros k j _ u v Lu (o & id' & pc & ps & n & Eu & Q & _). apply Lv in Lu as [-> _]. rewrite E in Eu. injection Eu as <-. rewrite Eo in Q. discriminate.
  - split.
    + intros x Hx. apply elem_of_singleton in Hx as ->. eauto.
    + intros x p Hx (o & Ex & Hp). exfalso. apply elem_of_singleton in Hx as ->. rewrite E in Ex. injection Ex as <-. rewrite EP in Hp. set_solver.
  - intros x. rewrite elem_of_singleton. unfold contains_op. rewrite bool_decide_eq_true. cbn. split.
    + intros [o Ho]. apply lookup_insert_Some in Ho as [[-> _]|[_ Ho]]; [reflexivity|]. rewrite lookup_empty in Ho. discriminate.
    + intros ->. rewrite lookup_insert. eauto.
  - apply map_subseteq_spec. intros x o Q. cbn in Q. apply lookup_insert_Some in Q as [[<- <-]|[_ Q]]; [exact E|]. rewrite lookup_empty in Q. discriminate.
  - apply gr_first. exact EP.
Qed.

(** The epochs of a part of the operations. *)
Context (g : graph) (V : GInv g) (U : unordered_preds g) (SR : single_root g) (Sub : g_ops g ⊆ ops).

Lemma epochs_plain hs es : NoDup hs -> (forall x, x ∈ hs -> is_Some (g_ops g !! x)) -> topsort_for_heads g hs = Ok es -> good_replay g hs es ->
  forall e, e ∈ es -> plain_epoch e.
Proof.
  intros ND Kh Et GR e He.
  assert (Dec : (forall o, o ∈ e -> is_update (so_op o) = true) \/ exists o, o ∈ e /\ is_update (so_op o) = false).
  { clear. induction e as [|o e IH]; [left; intros o Ho; inversion Ho|]. destruct (is_update (so_op o)) eqn:Q; [|right; exists o; split; [left|exact Q]].
    destruct IH as [IH|(o' & Ho' & Q')]; [left|right; exists o'; split; [right; exact Ho'|exact Q']]. intros o' Ho'. apply elem_of_cons in Ho' as [-> |Ho']; auto. }
  destruct Dec as [H|Ex]; [right; exact H|left].
  destruct Ex as (o & Ho & NU). exists o.
  assert (Hc : o ∈ concat es) by (apply elem_of_list_In, in_concat; exists e; split; apply elem_of_list_In; assumption).
  apply (gre_complete _ _ _ GR) in Hc as [Eo An].
  eapply (topsort_alone g hs es V U ND Kh Et (so_hash o)); [|exact An|exact He|exact Ho|reflexivity].
  intros x Hx. destruct (AT (so_hash o) o x) as [H1|[H1|H1]].
  - eapply lookup_weaken; eauto.
  - exact NU.
  - destruct Hx as [ox Hx]. exists ox. eapply lookup_weaken; eauto.
  - left. exact H1.
  - right. left. apply (before_down g (all_ops ops) V Sub x (so_hash o)); [exact H1|eauto].
  - right. right. apply (before_down g (all_ops ops) V Sub (so_hash o) x); [exact H1|exact Hx].
Qed.

Lemma replay_described hs es id pk init c0 : NoDup hs -> hs <> [] -> (forall x, x ∈ hs -> is_Some (g_ops g !! x)) -> topsort_for_heads g hs = Ok es -> good_replay g hs es ->
  g_ops g !! so_hash init = Some init -> so_op init = init_add id pk -> cgka_from_init id pk init = Ok c0 ->
  exists c1, apply_epochs rorder c0 es = Ok c1 /\ described c1 (concat es).
Proof.
  intros ND NE Kh Et GR Ei Eo E0. pose proof (epochs_plain hs es ND Kh Et GR) as Pe.
  assert (Look : forall o, o ∈ concat es -> g_ops g !! so_hash o = Some o) by (intros o Ho; apply (gre_complete _ _ _ GR) in Ho; tauto).
  assert (Up : forall a o b, concat es = a ++ o :: b -> next_up a o).
  { intros a o b Eq. assert (Ho : o ∈ concat es) by (rewrite Eq; set_solver). assert (Ha : forall o', o' ∈ a -> o' ∈ concat es) by (intros o' H'; rewrite Eq; set_solver).
    split; [eapply lookup_weaken; [apply Look, Ho|exact Sub]|]. split.
    - intros Z. apply elem_of_done in Z as (o' & Ho' & Eh). assert (o' = o) as -> by (pose proof (Look _ (Ha _ Ho')) as Q; rewrite Eh, (Look _ Ho) in Q; congruence).
      pose proof (gre_once _ _ _ GR) as Nd. rewrite Eq in Nd. apply NoDup_app in Nd as (_ & Nd & _). apply (Nd _ Ho'). left.
    - intros p Hp. destruct (gre_causal _ _ _ GR (length a) o p) as (j & o' & Hj & Ej & Ed); [rewrite Eq, lookup_app_r by lia; rewrite Nat.sub_diag; reflexivity|exact Hp|].
      rewrite Eq, lookup_app_l in Ej by exact Hj. apply elem_of_done. exists o'. split; [|exact Ed]. eapply elem_of_list_lookup_2; eauto. }
  destruct es as [|e es'].
  { exfalso. destruct hs as [|x hs]; [contradiction|]. destruct (Kh x ltac:(left)) as [o Eo']. pose proof (gi_hash _ V _ _ Eo') as Eh.
    assert (Z : o ∈ concat (@nil (list signed_op))); [|inversion Z]. apply (gre_complete _ _ _ GR). rewrite Eh. split; [exact Eo'|]. exists x. split; [left|apply rtc_refl]. }
  destruct e as [|o e1]; [exfalso; eapply (gre_nonempty _ _ _ GR []); [left|reflexivity]|].
  assert (o = init) as ->.
  { assert (Eo' : g_ops g !! so_hash o = Some o) by (apply Look; cbn; left).
    assert (Po : op_preds (so_op o) = ∅).
    { apply set_eq. intros p. split; [|set_solver]. intros Hp. destruct (gre_causal _ _ _ GR 0 o p) as (j & o' & Hj & _); [reflexivity|exact Hp|lia]. }
    pose proof (SR _ _ _ _ Eo' Ei Po ltac:(rewrite Eo; reflexivity)) as Eh. rewrite Eh, Ei in Eo'. injection Eo' as <-. reflexivity. }
  assert (e1 = []) as ->.
  { destruct (Pe (init :: e1) ltac:(left)) as [[o Q]|Q]; [injection Q as _ ->; reflexivity|]. specialize (Q init ltac:(left)). rewrite Eo in Q. discriminate. }
  assert (D0 : described c0 [init]) by (eapply described_init; [eapply lookup_weaken; [exact Ei|exact Sub]|exact Eo|exact E0]).
  cbn [apply_epochs apply_epoch]. rewrite apply_operation_eq. replace (contains_op (c_graph c0) (so_hash init)) with true.
  2:{ symmetry. apply (dc_ops _ _ D0), elem_of_done. exists init. split; [left|reflexivity]. }
  cbn [rbind]. destruct (described_epochs es' c0 [init] D0) as (c1 & E1 & D1).
  - intros e He. apply Pe. right. exact He.
  - apply next_seq_all. intros a o b Eq. apply (Up (init :: a) o b). cbn. rewrite Eq. reflexivity.
  - exists c1. split; [exact E1|]. exact D1.
Qed.
End replay.
