(** Replaying the operations of a group that only grows. *)
From Coq Require Import Arith Lia.
From stdpp Require Import base list gmap.
From Verif Require Import ResModel KeysModel KeysProofs TreeMathModel TreeMathSpec TreeMathProofs TreeModel TreeSpec TreeView
  OpsModel OpsSpec OpsInv OpsProofs OpsPropsProofs CgkaModel CgkaSpec CgkaProofs CgkaReplay CgkaConverge CgkaRow NetSpec GrowSpec.

Definition added_ids (ops : list signed_op) : list member_id :=
  omap (fun op => match so_op op with CAdd id _ _ _ _ => Some id | _ => None end) ops.
Lemma added_ids_app a b : added_ids (a ++ b) = added_ids a ++ added_ids b.
Proof. apply omap_app. Qed.

Record grown (c : cgka) (h : nat) (ls : list leaf_node) (done : list signed_op) : Prop := Grown {
  gw_row : rowed (c_tree c) h ls;
  gw_found : found (c_tree c) ls;
  gw_only : only (c_tree c) (map l_id ls);
  gw_nodup : NoDup (map l_id ls);
  gw_ids : map l_id ls ≡ₚ added_ids done;
  gw_keys l k : l ∈ ls -> k ∈ nk_keys (l_pk l) -> exists o, o ∈ done /\ gives_key (so_op o) (l_id l) k;
  gw_ops x : contains_op (c_graph c) x = true <-> x ∈ map so_hash done;
  gw_of x o : g_ops (c_graph c) !! x = Some o -> o ∈ done;
  gw_reach : graph_reachable (c_graph c)
}.

(** [op] can be applied after the operations [done]. *)
Definition plain (done : list signed_op) (op : signed_op) : Prop :=
  so_hash op ∉ map so_hash done /\ (forall p, p ∈ op_preds (so_op op) -> p ∈ map so_hash done) /\
  match so_op op with
  | CAdd id _ _ _ _ => id ∉ added_ids done
  | CRemove _ _ _ _ => False
  | CUpdate _ pc _ => pc_leaf_idx pc < length (added_ids done) /\ path_fits pc
  end.
Fixpoint plain_seq (done ops : list signed_op) : Prop :=
  match ops with
  | [] => True
  | op :: ops => plain done op /\ plain_seq (done ++ [op]) ops
  end.

Lemma contains_add_op g op x : contains_op (add_op g op (op_preds (so_op op))) x = true <-> contains_op g x = true \/ x = so_hash op.
Proof.
  unfold contains_op. rewrite !bool_decide_eq_true. unfold add_op, add_op_and_update_heads. cbn [g_ops]. destruct (decide (x = so_hash op)) as [-> |N].
  - rewrite lookup_insert. split; [auto|]. intros _. eauto.
  - rewrite lookup_insert_ne by auto. split; [auto|]. intros [H|H]; [exact H|contradiction].
Qed.

Lemma ids_forall2 pc ls ls' : Forall2 (leaf_updated pc) ls ls' -> map l_id ls' = map l_id ls.
Proof. induction 1 as [|x y l l' [E _] _ IH]; cbn; [reflexivity|]. rewrite E, IH. reflexivity. Qed.

Lemma grown_op c h ls done op : grown c h ls done -> plain done op ->
  exists c' h' ls0, apply_operation c op = Ok c' /\ map l_id ls0 = map l_id ls /\
    exists new, map l_id new = added_ids [op] /\ grown c' h' (ls0 ++ new) (done ++ [op]).
Proof.
  intros G (Fr & Pp & Pl). destruct G as [R Fo On ND Ids Ks Ops Ofs Rg]. rewrite apply_operation_eq.
  destruct (contains_op (c_graph c) (so_hash op)) eqn:Ec; [exfalso; apply Fr, Ops, Ec|].
  assert (GO : forall x, contains_op (add_op (c_graph c) op (op_preds (so_op op))) x = true <-> x ∈ map so_hash (done ++ [op])).
  { intros x. rewrite contains_add_op, Ops, map_app, elem_of_app. cbn. rewrite elem_of_list_singleton. reflexivity. }
  assert (GF : forall x o, g_ops (add_op (c_graph c) op (op_preds (so_op op))) !! x = Some o -> o ∈ done ++ [op]).
  { intros x o. unfold add_op, add_op_and_update_heads. cbn [g_ops]. intros Z. apply elem_of_app. apply lookup_insert_Some in Z as [[_ <-]|[_ Z]]; [right; left|left; eauto]. }
  assert (GRe : graph_reachable (add_op (c_graph c) op (op_preds (so_op op)))).
  { apply gr_remote; [exact Rg|exact Ec|]. apply bool_decide_eq_true. intros p Hp. apply Pp, Ops in Hp. apply bool_decide_eq_true in Hp. exact Hp. }
  assert (KM : forall id k, (exists o, o ∈ done /\ gives_key (so_op o) id k) -> exists o, o ∈ done ++ [op] /\ gives_key (so_op o) id k).
  { intros id k (o & Ho & Hk). exists o. rewrite elem_of_app. auto. }
  unfold tree_apply. unfold added_ids. cbn [omap list_omap]. destruct (so_op op) as [id pk i ps qs|id i ks ps|id pc ps] eqn:Eo; [|contradiction|].
  - destruct (push_rowed (c_tree c) h ls (LeafNode id (SKey pk)) R) as (t' & h' & E & Hh & R' & I'). cbn [l_id l_pk] in E, I'. rewrite E. cbn [rbind].
    eexists _, h', ls. split; [reflexivity|]. split; [reflexivity|]. exists [LeafNode id (SKey pk)]. split; [reflexivity|].
    assert (Nid : id ∉ map l_id ls) by (rewrite Ids; exact Pl).
    constructor; cbn [c_tree c_graph set_graph set_tree].
    + exact R'.
    + intros j l Hl. rewrite I'. apply lookup_app_Some in Hl as [Hl|[Hj Hl]].
      * rewrite lookup_insert_ne; [eauto|]. intros ->. apply Nid, elem_of_list_fmap. exists l. split; [reflexivity|]. eapply elem_of_list_lookup_2; eauto.
      * apply list_lookup_singleton_Some in Hl as [Hz <-]. cbn [l_id]. rewrite lookup_insert. f_equal. lia.
    + intros x Hx. rewrite I' in Hx. rewrite map_app, elem_of_app. destruct (decide (x = id)) as [-> |N]; [right; left|].
      rewrite lookup_insert_ne in Hx by auto. left. apply On, Hx.
    + rewrite map_app. apply NoDup_app. split; [exact ND|]. split; [|apply NoDup_singleton]. intros x Hx Z. cbn in Z. apply elem_of_list_singleton in Z as ->. exact (Nid Hx).
    + rewrite map_app, added_ids_app, Ids. unfold added_ids at 3. cbn [omap list_omap map]. rewrite Eo. reflexivity.
    + intros l k Hl Hk. apply elem_of_app in Hl as [Hl|Hl]; [eauto|]. apply elem_of_list_singleton in Hl as ->. cbn in Hk. apply elem_of_list_singleton in Hk as ->.
      exists op. split; [apply elem_of_app; right; left|]. rewrite Eo. split; reflexivity.
    + exact GO.
    + exact GF.
    + exact GRe.
  - destruct Pl as [Hi Fit].
    assert (Hi' : pc_leaf_idx pc < 2 ^ h). { rewrite <- Ids, map_length in Hi. pose proof (rw_fit _ _ _ R). lia. }
    destruct (apply_rowed (c_tree c) h ls pc R Fo On Hi' Fit) as (t' & ls' & E & R' & I' & U). rewrite E. cbn [rbind].
    pose proof (ids_forall2 _ _ _ U) as Ei.
    eexists _, h, ls'. split; [reflexivity|]. split; [exact Ei|]. exists []. split; [reflexivity|]. rewrite app_nil_r.
    constructor; cbn [c_tree c_graph set_graph set_tree].
    + exact R'.
    + intros j l Hl. rewrite I'. destruct (Forall2_lookup_r _ _ _ _ _ U Hl) as (l0 & Hl0 & Lu). destruct Lu as [-> _]. eauto.
    + intros x Hx. rewrite Ei. apply On. rewrite <- I'. exact Hx.
    + rewrite Ei. exact ND.
    + rewrite Ei, added_ids_app. unfold added_ids at 2. cbn [omap list_omap]. rewrite Eo, app_nil_r. exact Ids.
    + intros l k Hl Hk. apply elem_of_list_lookup in Hl as (j & Hl). destruct (Forall2_lookup_r _ _ _ _ _ U Hl) as (l0 & Hl0 & (E0 & _ & Lk)).
      rewrite E0. destruct (Lk _ Hk) as [Hk2|[Hid Hk2]]; clear Hk; rename Hk2 into Hk.
      * apply KM. eapply Ks; [eapply elem_of_list_lookup_2; exact Hl0|exact Hk].
      * exists op. split; [apply elem_of_app; right; left|]. rewrite Eo. cbn. auto.
    + exact GO.
    + exact GF.
    + exact GRe.
Qed.

Lemma grown_ops e : forall c h pre suf done e0, grown c h (pre ++ suf) done -> map l_id suf ≡ₚ added_ids e0 -> plain_seq done e ->
  exists c' h' pre' suf', apply_operations c e = Ok c' /\ grown c' h' (pre' ++ suf') (done ++ e) /\ map l_id suf' ≡ₚ added_ids (e0 ++ e).
Proof.
  induction e as [|op e IH]; intros c h pre suf done e0 G P Ps; cbn [apply_operations].
  - exists c, h, pre, suf. rewrite !app_nil_r. auto.
  - destruct Ps as [P1 P2]. destruct (grown_op _ _ _ _ _ G P1) as (c1 & h1 & ls0 & E & Ei & new & En & G1). rewrite E. cbn [rbind].
    rewrite map_app in Ei. destruct (fmap_app_inv l_id ls0 (map l_id pre) (map l_id suf)) as (pre1 & suf1 & E1 & E2 & ->); [symmetry; symmetry; exact Ei|].
    rewrite <- app_assoc in G1.
    destruct (IH c1 h1 pre1 (suf1 ++ new) (done ++ [op]) (e0 ++ [op]) G1) as (c' & h' & pre' & suf' & E' & G' & P').
    + rewrite map_app, added_ids_app, En, <- P. change (map l_id suf = map l_id suf1) in E2. rewrite E2. reflexivity.
    + exact P2.
    + exists c', h', pre', suf'. rewrite <- !app_assoc in *. auto.
Qed.

Lemma plain_no_removal e : forall done, plain_seq done e -> epoch_removed e = ∅.
Proof.
  induction e as [|op e IH]; intros done; [reflexivity|]. intros [(_ & _ & P) Ps]. apply IH in Ps. unfold epoch_removed in *. cbn [omap list_omap].
  destruct (so_op op); [exact Ps|contradiction|exact Ps].
Qed.

Section epochs.
Context (rorder : gset (member_id * nat) -> list (member_id * nat)) (HR : some_order rorder).

Lemma rorder_nothing : rorder ∅ = [].
Proof. apply Permutation_nil. rewrite (HR ∅), elements_empty. reflexivity. Qed.

Lemma grown_sort c h pre suf done e : grown c h (pre ++ suf) done -> map l_id suf ≡ₚ added_ids e -> epoch_removed e = ∅ ->
  exists t h' ls, sort_leaves_and_blank_paths (c_tree c) (epoch_added e) (rorder (epoch_removed e)) = Ok t /\ grown (set_tree c t) h' ls done.
Proof.
  intros [R Fo On ND Ids Ks Ops Ofs Rg] P ->. rewrite rorder_nothing.
  replace (epoch_added e) with (list_to_set (map l_id suf) : gset member_id).
  2:{ apply set_eq. intros x. rewrite elem_of_list_to_set, P. unfold epoch_added. rewrite elem_of_list_to_set. reflexivity. }
  destruct (sort_rowed _ _ _ _ R Fo ND) as (t & h' & suf' & E & _ & R' & F' & Pm & O').
  assert (Pl : pre ++ suf' ≡ₚ pre ++ suf) by (rewrite Pm; reflexivity).
  assert (Pi : map l_id (pre ++ suf') ≡ₚ map l_id (pre ++ suf)) by (apply fmap_Permutation, Pl).
  exists t, h', (pre ++ suf'). split; [exact E|]. constructor; cbn [c_tree c_graph set_tree].
  - exact R'.
  - exact F'.
  - intros x Hx. rewrite Pi. apply O' in Hx as [Hx|Hx]; [apply On, Hx|rewrite map_app, elem_of_app; auto].
  - rewrite Pi. exact ND.
  - rewrite Pi. exact Ids.
  - intros l k Hl. rewrite Pl in Hl. eauto.
  - exact Ops.
  - exact Ofs.
  - exact Rg.
Qed.

(** The part [e0] of an epoch is already applied. *)
Lemma grown_epoch_gen c h pre suf done e0 e : grown c h (pre ++ suf) done -> map l_id suf ≡ₚ added_ids e0 -> epoch_removed e0 = ∅ -> plain_seq done e ->
  exists c' h' ls, (if forallb (fun op => is_update (so_op op)) (e0 ++ e) then apply_operations c e
    else let! c := apply_operations c e in
         let! t := sort_leaves_and_blank_paths (c_tree c) (epoch_added (e0 ++ e)) (rorder (epoch_removed (e0 ++ e))) in
         Ok (set_tree c t)) = Ok c' /\ grown c' h' ls (done ++ e).
Proof.
  intros G P N Ps. destruct (grown_ops e c h pre suf done e0 G P Ps) as (c1 & h1 & pre1 & suf1 & E & G1 & P1). rewrite E.
  destruct (forallb _ _); [eexists _, _, _; split; [reflexivity|exact G1]|]. cbn [rbind].
  destruct (grown_sort c1 h1 pre1 suf1 (done ++ e) (e0 ++ e) G1 P1) as (t & h' & ls & Es & G').
  - unfold epoch_removed in *. rewrite omap_app, list_to_set_app_L, N. rewrite (plain_no_removal e done Ps : list_to_set _ = ∅). set_solver.
  - rewrite Es. cbn [rbind]. eexists _, _, _. split; [reflexivity|exact G'].
Qed.

Lemma grown_epoch c h ls done e : grown c h ls done -> plain_seq done e ->
  exists c' h' ls', apply_epoch rorder c e = Ok c' /\ grown c' h' ls' (done ++ e).
Proof.
  intros G Ps. assert (G0 : grown c h (ls ++ []) done) by (rewrite app_nil_r; exact G).
  destruct e as [|op [|op' e]].
  - exact (grown_epoch_gen c h ls [] done [] [] G0 (Permutation_refl _) eq_refl Ps).
  - destruct Ps as [P _]. destruct (grown_op _ _ _ _ _ G P) as (c' & h' & ls0 & E & _ & new & _ & G'). exists c', h', (ls0 ++ new). auto.
  - exact (grown_epoch_gen c h ls [] done [] (op :: op' :: e) G0 (Permutation_refl _) eq_refl Ps).
Qed.

Lemma plain_seq_app a : forall done b, plain_seq done (a ++ b) -> plain_seq done a /\ plain_seq (done ++ a) b.
Proof.
  induction a as [|x a IH]; intros done b; cbn; [rewrite app_nil_r; auto|]. intros [P Ps]. apply IH in Ps as [A B]. rewrite <- app_assoc in B. auto.
Qed.

Lemma grown_epochs es : forall c h ls done, grown c h ls done -> plain_seq done (concat es) ->
  exists c' h' ls', apply_epochs rorder c es = Ok c' /\ grown c' h' ls' (done ++ concat es).
Proof.
  induction es as [|e es IH]; intros c h ls done G Ps; cbn [apply_epochs concat].
  - exists c, h, ls. rewrite app_nil_r. auto.
  - cbn [concat] in Ps. apply plain_seq_app in Ps as [P1 P2]. destruct (grown_epoch _ _ _ _ _ G P1) as (c1 & h1 & ls1 & E & G1). rewrite E. cbn [rbind].
    destruct (IH _ _ _ _ G1 P2) as (c' & h' & ls' & E' & G'). exists c', h', ls'. rewrite app_assoc. auto.
Qed.

(** From the first operation on. *)
Lemma grown_init id pk op c0 : so_op op = init_add id pk -> cgka_from_init id pk op = Ok c0 -> exists ls, grown c0 1 ls [op].
Proof.
  intros Eo. unfold cgka_from_init. destruct (tree_new_spec id pk) as (t & Et & S & N & Ids & L & _). rewrite Et. cbn [rbind]. intros Q. injection Q as <-.
  exists [LeafNode id (SKey pk)].
  constructor; cbn [c_tree c_graph].
  - constructor; [exact S|exact N|cbn; lia|]. intros i. rewrite L. destruct (decide (i = 0)) as [-> |]; [reflexivity|]. destruct i; [congruence|reflexivity].
  - intros i l Hl. apply list_lookup_singleton_Some in Hl as [-> <-]. rewrite Ids. apply lookup_singleton.
  - intros x [i Hx]. rewrite Ids in Hx. apply lookup_singleton_Some in Hx as [<- _]. left.
  - apply NoDup_singleton.
  - unfold added_ids. cbn. rewrite Eo. reflexivity.
  - intros l k Hl Hk. apply elem_of_list_singleton in Hl as ->. cbn in Hk. apply elem_of_list_singleton in Hk as ->. exists op. split; [left|]. rewrite Eo. cbn. auto.
  - intros x. unfold contains_op. rewrite bool_decide_eq_true. cbn. rewrite elem_of_list_singleton. split.
    + intros [o Ho]. apply lookup_insert_Some in Ho as [[-> _]|[_ Ho]]; [reflexivity|]. rewrite lookup_empty in Ho. discriminate.
    + intros ->. rewrite lookup_insert. eauto.
  - intros x o. cbn. intros Z. apply lookup_insert_Some in Z as [[_ <-]|[_ Z]]; [left|]. rewrite lookup_empty in Z. discriminate.
  - apply gr_first. rewrite Eo. reflexivity.
Qed.

Lemma grown_replay id pk op c0 e1 es : so_op op = init_add id pk -> cgka_from_init id pk op = Ok c0 -> plain_seq [op] (e1 ++ concat es) ->
  exists c' h ls, apply_epochs rorder c0 ((op :: e1) :: es) = Ok c' /\ grown c' h ls (op :: e1 ++ concat es).
Proof.
  intros Eo E0 Ps. apply plain_seq_app in Ps as [P1 P2]. destruct (grown_init _ _ _ _ Eo E0) as (ls & G).
  assert (Kn : apply_operation c0 op = Ok c0).
  { rewrite apply_operation_eq. assert (C : contains_op (c_graph c0) (so_hash op) = true) by (apply (gw_ops _ _ _ _ G); left). rewrite C. reflexivity. }
  assert (Q : exists c1 h1 ls1, apply_epoch rorder c0 (op :: e1) = Ok c1 /\ grown c1 h1 ls1 ([op] ++ e1)).
  { destruct e1 as [|o e1]; [exists c0, 1, ls; auto|].
    assert (G0 : grown c0 1 ([] ++ ls) [op]) by exact G.
    destruct (grown_epoch_gen c0 1 [] ls [op] [op] (o :: e1) G0) as (c1 & h1 & ls1 & E1 & G1).
    - apply (gw_ids _ _ _ _ G).
    - unfold epoch_removed. cbn. rewrite Eo. reflexivity.
    - exact P1.
    - exists c1, h1, ls1. split; [|exact G1]. unfold apply_epoch. cbn [app] in E1.
      assert (EA : apply_operations c0 (op :: o :: e1) = apply_operations c0 (o :: e1)) by (cbn [apply_operations]; rewrite Kn; reflexivity).
      rewrite EA. exact E1. }
  destruct Q as (c1 & h1 & ls1 & E1 & G1). destruct (grown_epochs es _ _ _ _ G1 P2) as (c' & h' & ls' & E' & G').
  exists c', h', ls'. cbn [apply_epochs]. rewrite E1. cbn [rbind]. split; [exact E'|]. cbn [app] in G'. exact G'.
Qed.
End epochs.

(** ** The epochs of a growing graph *)

(** Update [o] was made at a leaf below the number of additions that precede it. *)
Definition update_fits (g : graph) (o : signed_op) : Prop :=
  match so_op o with
  | CUpdate _ pc _ => path_fits pc /\ exists A : gset digest, pc_leaf_idx pc < size A /\
      forall a, a ∈ A -> before g a (so_hash o) /\ exists oa, g_ops g !! a = Some oa /\ is_add (so_op oa) = true
  | _ => True
  end.

Lemma added_ids_length l : length (added_ids l) = length (filter (fun o => is_add (so_op o) = true) l).
Proof.
  induction l as [|o l IH]; [reflexivity|]. unfold added_ids in *. cbn [omap list_omap]. rewrite filter_cons.
  destruct (so_op o); cbn [is_add]; (destruct (decide _) as [Z|Z]; [|try congruence]); cbn; rewrite ?IH; try reflexivity; congruence.
Qed.

Lemma adds_bound (A : gset digest) l : (forall a, a ∈ A -> exists o, o ∈ l /\ so_hash o = a /\ is_add (so_op o) = true) -> size A <= length (added_ids l).
Proof.
  intros H. rewrite added_ids_length. rewrite <- (map_length so_hash). unfold size, set_size. cbn. apply submseteq_length, NoDup_submseteq; [apply NoDup_elements|].
  intros a Ha. apply elem_of_elements, H in Ha as (o & Ho & <- & Hadd). apply elem_of_list_fmap. exists o. split; [reflexivity|]. apply elem_of_list_filter. auto.
Qed.

Lemma plain_seq_all l : forall done, (forall a o b, l = a ++ o :: b -> plain (done ++ a) o) -> plain_seq done l.
Proof.
  induction l as [|o l IH]; intros done H; [exact I|]. split.
  - rewrite <- (app_nil_r done). apply (H [] o l). reflexivity.
  - apply IH. intros a o' b ->. rewrite <- app_assoc. apply (H (o :: a) o' b). reflexivity.
Qed.

Section order.
Context (g : graph) (es : list (list signed_op)).
Context (L : forall o, o ∈ concat es <-> g_ops g !! so_hash o = Some o) (GR : good_replay g (elements (g_heads g)) es).

Lemma before_earlier x z : before g x z -> forall i o, concat es !! i = Some o -> so_hash o = z ->
  exists j o', j < i /\ concat es !! j = Some o' /\ so_hash o' = x.
Proof.
  assert (One : forall x z, pred_of g x z -> forall i o, concat es !! i = Some o -> so_hash o = z ->
    exists j o', j < i /\ concat es !! j = Some o' /\ so_hash o' = x).
  { intros x' z' (oz & Ez & Hx) i o Hi <-. assert (Q : g_ops g !! so_hash o = Some o) by (apply L; eapply elem_of_list_lookup_2; eauto).
    assert (oz = o) as -> by congruence. eapply (gre_causal _ _ _ GR); eauto. }
  intros B. induction B as [x z P|x y z P _ IH]; [apply One, P|]. intros i o Hi Ho.
  destruct (IH i o Hi Ho) as (j & o' & Hj & Ej & Eo). destruct (One _ _ P j o' Ej Eo) as (k & o2 & Hk & Ek & E2). exists k, o2. split; [lia|]. auto.
Qed.

Context (HK : forall h o, g_ops g !! h = Some o -> so_hash o = h).
Context (OG : only_grows (g_ops g)) (UF : forall h o, g_ops g !! h = Some o -> update_fits g o).

Lemma order_plain a o b : concat es = a ++ o :: b -> plain a o.
Proof.
  intros E. assert (Ho : g_ops g !! so_hash o = Some o) by (apply L; rewrite E; set_solver).
  assert (Ha : forall o', o' ∈ a -> g_ops g !! so_hash o' = Some o') by (intros o' H'; apply L; rewrite E; set_solver).
  assert (Nin : o ∉ a).
  { pose proof (gre_once _ _ _ GR) as ND. rewrite E in ND. apply NoDup_app in ND as (_ & ND & _). intros Z. apply (ND _ Z). left. }
  assert (Fr : so_hash o ∉ map so_hash a).
  { intros Z. apply elem_of_list_fmap in Z as (o' & Eh & Z). pose proof (Ha _ Z) as Q. rewrite <- Eh, Ho in Q. injection Q as <-. exact (Nin Z). }
  split; [exact Fr|]. split.
  { intros p Hp. destruct (gre_causal _ _ _ GR (length a) o p) as (j & o' & Hj & Ej & Ed); [rewrite E, lookup_app_r by lia; rewrite Nat.sub_diag; reflexivity|exact Hp|].
    rewrite E, lookup_app_l in Ej by exact Hj. apply elem_of_list_fmap. exists o'. split; [symmetry; exact Ed|]. eapply elem_of_list_lookup_2; eauto. }
  destruct OG as [OG1 OG2]. pose proof (UF _ _ Ho) as U. unfold update_fits in U.
  destruct (so_op o) as [id pk i ps qs|id i ks ps|id pc ps] eqn:Eo.
  - intros Z. unfold added_ids in Z. apply elem_of_list_omap in Z as (o' & Z & Q). destruct (so_op o') as [id' pk' i' ps' qs'| |] eqn:Eo'; [|discriminate..].
    injection Q as ->. pose proof (OG2 _ _ _ _ _ _ _ _ _ _ _ _ _ Ho (Ha _ Z) Eo Eo') as Eh. apply Fr. rewrite Eh. apply elem_of_list_fmap. eauto.
  - exact (OG1 _ _ _ _ _ _ Ho Eo).
  - destruct U as (Fit & A & Sz & HA). split; [|exact Fit]. eapply Nat.lt_le_trans; [exact Sz|]. apply adds_bound. intros d Hd.
    destruct (HA _ Hd) as (B & oa & Eoa & Add).
    destruct (before_earlier _ _ B (length a) o) as (j & o' & Hj & Ej & Ed); [rewrite E, lookup_app_r by lia; rewrite Nat.sub_diag; reflexivity|reflexivity|].
    rewrite E, lookup_app_l in Ej by exact Hj. apply elem_of_list_lookup_2 in Ej. pose proof (Ha _ Ej) as Q. rewrite Ed, Eoa in Q. injection Q as ->. eauto.
Qed.

Lemma order_init init : g_ops g !! so_hash init = Some init -> op_preds (so_op init) = ∅ -> single_root g ->
  exists e1 es', es = (init :: e1) :: es'.
Proof.
  intros Ei Pi SR. assert (Hi : init ∈ concat es) by (apply L, Ei). destruct es as [|e es'] eqn:Ees; [cbn in Hi; inversion Hi|].
  destruct e as [|o e1]; [exfalso; eapply (gre_nonempty _ _ _ GR []); [left|reflexivity]|].
  assert (Eo : g_ops g !! so_hash o = Some o) by (apply L; cbn; left).
  assert (Po : op_preds (so_op o) = ∅).
  { apply set_eq. intros p. split; [|set_solver]. intros Hp. destruct (gre_causal _ _ _ GR 0 o p) as (j & o' & Hj & _); [reflexivity|exact Hp|lia]. }
  pose proof (SR _ _ _ _ Eo Ei Po Pi) as Eh. rewrite Eh, Ei in Eo. injection Eo as <-. eauto.
Qed.

Context (rorder : gset (member_id * nat) -> list (member_id * nat)) (HR : some_order rorder).

Lemma order_replays id pk init c0 : g_ops g !! so_hash init = Some init -> so_op init = init_add id pk -> single_root g ->
  cgka_from_init id pk init = Ok c0 -> exists c' h ls, apply_epochs rorder c0 es = Ok c' /\ grown c' h ls (concat es).
Proof.
  intros Ei Eo SR E0. destruct (order_init init Ei ltac:(rewrite Eo; reflexivity) SR) as (e1 & es' & Ees).
  pose proof order_plain as OP. rewrite Ees in OP |- *. apply (grown_replay rorder HR id pk); [exact Eo|exact E0|].
  apply plain_seq_all. intros a o b Ea. apply (OP _ _ b). cbn. rewrite Ea. reflexivity.
Qed.

Lemma grown_members c h ls : grown c h ls (concat es) -> members_tree (g_ops g) (c_tree c).
Proof.
  intros [R Fo On ND Ids Ks _ _ _]. pose proof R as [S N F Lv].
  assert (Look : forall i l, leafv (c_tree c) i = Some l <-> ls !! i = Some l) by (intros; rewrite Lv; reflexivity).
  constructor.
  - intros id. assert (Q : (exists i nk, leafv (c_tree c) i = Some (LeafNode id nk)) <-> id ∈ map l_id ls).
    { split.
      - intros (i & nk & E). rewrite Lv in E. apply elem_of_list_fmap. exists (LeafNode id nk). split; [reflexivity|]. eapply elem_of_list_lookup_2; eauto.
      - intros Q. apply elem_of_list_fmap in Q as ([id' nk] & Eid & Q). cbn in Eid. subst id'. apply elem_of_list_lookup in Q as (i & Q). exists i, nk. rewrite Lv. exact Q. }
    rewrite Q, Ids. unfold added_ids. rewrite elem_of_list_omap. split.
    + intros (o & Ho & Z). destruct (so_op o) eqn:Eo; [|discriminate..]. injection Z as ->. apply L in Ho. eauto 10.
    + intros (x & o & pk & i & ps & qs & Ex & Eo). pose proof Ex as Ex2.
      destruct (decide (so_hash o = x)) as [<-|Nx]; [exists o; split; [apply L, Ex|rewrite Eo; reflexivity]|].
      exfalso. exact (Nx (HK x o Ex)).
  - intros i j l l' Hi Hj E. rewrite Lv in Hi, Hj. apply Fo in Hi, Hj. congruence.
  - intros id i. split.
    + intros Hid. assert (Q : id ∈ map l_id ls) by (apply On; eauto). apply elem_of_list_fmap in Q as ([id' nk] & -> & Q). apply elem_of_list_lookup in Q as (j & Q).
      pose proof (Fo _ _ Q) as Z. cbn in Hid, Z. assert (i = j) as -> by congruence. exists nk. rewrite Lv. exact Q.
    + intros [nk E]. rewrite Lv in E. exact (Fo _ _ E).
  - intros i l k E Hk. rewrite Lv in E. apply elem_of_list_lookup_2 in E. destruct (Ks _ _ E Hk) as (o & Ho & G). apply L in Ho. eauto.
  - intros i. rewrite N. split; [intros [l E]; rewrite Lv in E; eapply lookup_lt_Some; eauto|]. intros Hi. apply lookup_lt_is_Some_2 in Hi as [l E]. exists l. rewrite Lv. exact E.
Qed.
End order.
