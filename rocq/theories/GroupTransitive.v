(** Transitive members. *)
From Coq Require Import Arith Lia.
From stdpp Require Import base list gmap relations sorting.
From Verif Require Import AccessModel GroupModel CgkaSpec GroupSpec GroupProofs GroupReplay GroupMembers.

Notation env := (gmap ident (gmap ident (list dlg))).
Notation entry := (ident * access * access)%type.

Lemma best_fold l b : is_Some (foldl (fun b d => match b with Some b => if ale (d_can b) (d_can d) then Some d else Some b | None => Some d end) (Some b) l).
Proof. revert b. induction l as [|d l IH]; intros b; cbn; [eauto|]. destruct (ale _ _); apply IH. Qed.
Lemma best_dlg_some l : l <> [] -> is_Some (best_dlg l).
Proof. destruct l as [|d l]; [contradiction|]. intros _. apply best_fold. Qed.
Lemma best_fold_in l b x : foldl (fun b d => match b with Some b => if ale (d_can b) (d_can d) then Some d else Some b | None => Some d end) (Some b) l = Some x -> x = b \/ x ∈ l.
Proof.
  revert b. induction l as [|d l IH]; intros b E; cbn in E; [injection E as ->; auto|]. destruct (ale _ _); apply IH in E as [->|E];
    auto; right; [left|right; exact E|right; exact E].
Qed.
Lemma best_dlg_in l x : best_dlg l = Some x -> x ∈ l.
Proof. destruct l as [|d l]; [discriminate|]. intros E. apply best_fold_in in E as [->|E]; [left|right; exact E]. Qed.

Section transitive.
Context (order : gset nat -> list nat) (Hord : some_order order) (e : env) (self : ident).

Definition push_step (k : nat) (best : access) (st : list entry * gset (sig * nat)) (d : dlg) : list entry * gset (sig * nat) :=
  let '(stack, seen) := st in
  if decide ((d_sig d, k) ∈ seen) then st
  else ((d_delegate d, d_can d, best) :: stack, {[ (d_sig d, k) ]} ∪ seen).
Definition member_step (mems : gmap ident (list dlg)) (best : access) (st : list entry * gset (sig * nat) * gmap ident access) (id : ident) :
    list entry * gset (sig * nat) * gmap ident access :=
  let '(stack, seen, caps) := st in
  match get_capability mems id with
  | None => st
  | Some c =>
      let caps := <[id := best]> caps in
      let '(stack, seen) := foldl (push_step (rank (d_can c)) best) (stack, seen) (default [] (mems !! id)) in
      (stack, seen, caps)
  end.
Lemma transitive_unfold f m acc parent stack seen caps :
  transitive_loop order (S f) e self ((m, acc, parent) :: stack) seen caps =
    if m =? self then transitive_loop order f e self stack seen caps
    else
      let best := match caps !! m with Some x => amax x acc | None => acc end in
      let caps := <[m := amin acc parent]> caps in
      match e !! m with
      | None => transitive_loop order f e self stack seen caps
      | Some mems =>
          let '(stack, seen, caps) := foldl (member_step mems best) (stack, seen, caps) (order (dom mems)) in
          transitive_loop order f e self stack seen caps
      end.
Proof. reflexivity. Qed.

Definition ids (stack : list entry) : list ident := map (fun x => x.1.1) stack.
(** [U] contains everything that may be seen. *)
Context (U : gset (sig * nat)).
Definition left_over (seen : gset (sig * nat)) : nat := size (U ∖ seen).

Lemma push_fold k best l stack seen : (forall d, d ∈ l -> (d_sig d, k) ∈ U) ->
  exists stack' seen', foldl (push_step k best) (stack, seen) l = (stack', seen') /\
    length stack' + left_over seen' = length stack + left_over seen /\
    seen ⊆ seen' /\ (forall d, d ∈ l -> (d_sig d, k) ∈ seen') /\
    (forall i, i ∈ ids stack -> i ∈ ids stack') /\
    (forall i, i ∈ ids stack' -> i ∈ ids stack \/ exists d, d ∈ l /\ d_delegate d = i) /\
    (forall x, x ∈ seen' -> x ∈ seen \/ exists d, d ∈ l /\ x = (d_sig d, k) /\ d_delegate d ∈ ids stack').
Proof.
  revert stack seen. induction l as [|d l IH]; intros stack seen HU; cbn [foldl].
  - exists stack, seen. repeat split; auto. intros d H. inversion H.
  - cbn [push_step]. destruct (decide ((d_sig d, k) ∈ seen)) as [Y|N].
    + destruct (IH stack seen) as (st' & sn' & E & Ln & A & B & C & D & F); [intros; apply HU; right; assumption|].
      exists st', sn'. split; [exact E|]. split; [exact Ln|]. split; [exact A|]. split; [|split; [exact C|split]].
      * intros d' H. apply elem_of_cons in H as [->|H]; auto.
      * intros i H. apply D in H as [H|(d' & H & E')]; [auto|]. right. exists d'. split; [right; exact H|exact E'].
      * intros x H. apply F in H as [H|(d' & H & E')]; [auto|]. right. exists d'. split; [right; exact H|exact E'].
    + destruct (IH ((d_delegate d, d_can d, best) :: stack) ({[ (d_sig d, k) ]} ∪ seen)) as (st' & sn' & E & Ln & A & B & C & D & F); [intros; apply HU; right; assumption|].
      exists st', sn'. split; [exact E|]. split; [|split; [|split; [|split; [|split]]]].
      * rewrite Ln. cbn [length]. unfold left_over.
        assert (Q : U ∖ seen = {[ (d_sig d, k) ]} ∪ U ∖ ({[ (d_sig d, k) ]} ∪ seen)).
        { apply set_eq. intros x. rewrite elem_of_union, !elem_of_difference, elem_of_union, elem_of_singleton. split.
          - intros [X Y]. destruct (decide (x = (d_sig d, k))); tauto.
          - intros [->|[X Y]]; [split; [apply HU; left|exact N]|tauto]. }
        assert (Dj : ({[ (d_sig d, k) ]} : gset (sig * nat)) ## U ∖ ({[ (d_sig d, k) ]} ∪ seen)).
        { intros x X Y. apply elem_of_difference in Y as [_ Y]. apply Y, elem_of_union. auto. }
        rewrite Q, (size_union _ _ Dj), size_singleton. lia.
      * set_solver.
      * intros d' H. apply elem_of_cons in H as [->|H]; [|auto]. apply A. apply elem_of_union. left. apply elem_of_singleton. reflexivity.
      * intros i H. apply C. cbn. right. exact H.
      * intros i H. apply D in H as [H|(d' & H & E')].
        -- cbn in H. apply elem_of_cons in H as [->|H]; [right; exists d; split; [left|reflexivity]|auto].
        -- right. exists d'. split; [right; exact H|exact E'].
      * intros x H. apply F in H as [H|(d' & H & E')].
        -- apply elem_of_union in H as [H|H]; [|auto]. apply elem_of_singleton in H as ->. right. exists d. split; [left|]. split; [reflexivity|]. apply C. cbn. left.
        -- right. exists d'. split; [right; exact H|exact E'].
Qed.
Context (HS : sane e).
Context (HUn : forall g mems i l d k, e !! g = Some mems -> mems !! i = Some l -> d ∈ l -> (d_sig d, rank k) ∈ U).

Lemma member_fold m mems best xs stack seen caps : e !! m = Some mems -> (forall i, i ∈ xs -> is_Some (mems !! i)) ->
  exists stack' seen' caps', foldl (member_step mems best) (stack, seen, caps) xs = (stack', seen', caps') /\
    length stack' + left_over seen' = length stack + left_over seen /\
    seen ⊆ seen' /\ (forall i, i ∈ ids stack -> i ∈ ids stack') /\
    (forall i, is_Some (caps' !! i) <-> is_Some (caps !! i) \/ i ∈ xs) /\
    (forall i, i ∈ ids stack' -> i ∈ ids stack \/ i ∈ xs) /\
    (forall i, i ∈ xs -> exists d l k, mems !! i = Some l /\ d ∈ l /\ (d_sig d, k) ∈ seen') /\
    (forall x, x ∈ seen' -> x ∈ seen \/ exists i l d, mems !! i = Some l /\ d ∈ l /\ x.1 = d_sig d /\ d_delegate d ∈ ids stack').
Proof.
  intros Em. revert stack seen caps. induction xs as [|i xs IH]; intros stack seen caps Hx; cbn [foldl].
  - exists stack, seen, caps. split; [reflexivity|]. split; [reflexivity|]. split; [reflexivity|]. split; [auto|].
    split; [intros i; rewrite elem_of_nil; tauto|]. split; [auto|]. split; [intros i H; inversion H|auto].
  - destruct (Hx i) as [l El]; [left|]. destruct (proj1 HS _ _ _ _ Em El) as [Nl Dl]. destruct (best_dlg_some l Nl) as [c Ec].
    assert (Q : member_step mems best (stack, seen, caps) i =
      let '(stack, seen) := foldl (push_step (rank (d_can c)) best) (stack, seen) l in (stack, seen, <[i := best]> caps)).
    { cbn [member_step]. unfold get_capability. rewrite El, Ec. reflexivity. }
    rewrite Q. destruct (push_fold (rank (d_can c)) best l stack seen) as (st1 & sn1 & E1 & L1 & A1 & B1 & C1 & D1 & F1); [intros d Hd; eapply HUn; eauto|].
    rewrite E1. destruct (IH st1 sn1 (<[i := best]> caps)) as (st2 & sn2 & cp2 & E2 & L2 & A2 & C2 & K2 & D2 & G2 & F2); [intros; apply Hx; right; assumption|].
    exists st2, sn2, cp2. split; [exact E2|]. split; [lia|]. split; [transitivity sn1; assumption|]. split; [auto|]. split; [|split; [|split]].
    + intros j. rewrite K2, elem_of_cons. destruct (decide (i = j)) as [->|N]; [rewrite lookup_insert; split; [auto|eauto]|].
      rewrite lookup_insert_ne by exact N. naive_solver.
    + intros j H. apply D2 in H as [H|H]; [|right; right; exact H]. apply D1 in H as [H|(d & Hd & <-)]; [auto|]. rewrite (Dl _ Hd). right. left.
    + intros j H. apply elem_of_cons in H as [->|H]; [|apply G2, H]. exists c, l, (rank (d_can c)). split; [exact El|].
      pose proof (best_dlg_in _ _ Ec) as Hc. split; [exact Hc|]. apply A2, B1, Hc.
    + intros x H. apply F2 in H as [H|(j & l' & d & H)]; [|right; exists j, l', d; exact H].
      apply F1 in H as [H|(d & Hd & -> & H)]; [auto|]. right. exists i, l, d. split; [exact El|]. split; [exact Hd|]. split; [reflexivity|]. apply C2, H.
Qed.

Record searching (V : list ident) (stack : list entry) (seen : gset (sig * nat)) (caps : gmap ident access) : Prop := {
  se_stack : forall i, i ∈ ids stack -> belongs e self i;
  se_caps : forall i, is_Some (caps !! i) -> belongs e self i;
  se_start : forall i, direct e self i -> i ∈ V \/ i ∈ ids stack;
  se_seen : forall x, x ∈ seen -> forall g mems i l d, e !! g = Some mems -> mems !! i = Some l -> d ∈ l -> d_sig d = x.1 ->
     d_delegate d ∈ V \/ d_delegate d ∈ ids stack;
  se_done : forall m, m ∈ V -> m <> self -> is_Some (caps !! m) /\
     forall i, direct e m i -> is_Some (caps !! i) /\ (i ∈ V \/ i ∈ ids stack)
}.
Lemma tc_last a b : belongs e a b -> exists m, rtc (direct e) a m /\ direct e m b.
Proof.
  induction 1 as [a b D|a b c D _ (m & R & D')]; [exists a; split; [apply rtc_refl|exact D]|]. exists m. split; [eapply rtc_l; eauto|exact D'].
Qed.
Lemma search_end V seen caps : searching V [] seen caps -> forall i, i <> self -> is_Some (caps !! i) <-> belongs e self i.
Proof.
  intros I i Ni. split; [apply (se_caps _ _ _ _ I)|]. intros B.
  assert (St : forall m j, m = self \/ m ∈ V -> direct e m j -> j ∈ V).
  { intros m j Hm D. destruct (decide (m = self)) as [->|N].
    - destruct (se_start _ _ _ _ I _ D) as [H|H]; [exact H|inversion H].
    - destruct Hm as [Hm|Hm]; [contradiction|]. destruct (se_done _ _ _ _ I _ Hm N) as [_ A]. destruct (A _ D) as [_ [H|H]]; [exact H|inversion H]. }
  assert (G : forall m, rtc (direct e) self m -> m = self \/ m ∈ V).
  { apply rtc_ind_r; [auto|]. intros y z _ D IH. right. eapply St; eauto. }
  apply tc_last in B as (m & R & D). apply (se_done _ _ _ _ I); [eapply St; [apply G, R|exact D]|exact Ni].
Qed.
Lemma transitive_search f V stack seen caps : length stack + left_over seen <= f -> searching V stack seen caps ->
  exists caps', transitive_loop order f e self stack seen caps = Some caps' /\ forall i, i <> self -> is_Some (caps' !! i) <-> belongs e self i.
Proof.
  revert V stack seen caps. induction f as [|f IH]; intros V [|[[m acc] parent] stack] seen caps L I.
  1,3: exists caps; split; [reflexivity|]; eapply search_end, I.
  { cbn in L. lia. }
  rewrite transitive_unfold. cbn [length] in L.
  assert (Bm : belongs e self m) by (apply (se_stack _ _ _ _ I); left).
  assert (W : forall (P : ident -> Prop) i, i ∈ V \/ i ∈ ids ((m, acc, parent) :: stack) -> i ∈ m :: V \/ i ∈ ids stack).
  { intros _ i [H|H]; [left; right; exact H|]. cbn in H. apply elem_of_cons in H as [->|H]; [left; left|auto]. }
  destruct (Nat.eqb_spec m self) as [->|Nm].
  { apply (IH (self :: V)); [lia|]. destruct I as [I1 I2 I3 I4 I5]. constructor; auto.
    - intros i H. apply I1. right. exact H.
    - intros i D. apply (W (fun _ => True)), I3, D.
    - intros x Hx g mems i l d E1 E2 Hd S. apply (W (fun _ => True)). eapply I4; eauto.
    - intros j Hj Nj. apply elem_of_cons in Hj as [->|Hj]; [contradiction|]. destruct (I5 _ Hj Nj) as [A B]. split; [exact A|].
      intros i D. destruct (B _ D) as [B1 B2]. split; [exact B1|apply (W (fun _ => True)), B2]. }
  cbv zeta. set (best := match caps !! m with Some x => amax x acc | None => acc end). set (caps0 := <[m := amin acc parent]> caps).
  assert (K0 : forall i, is_Some (caps0 !! i) <-> i = m \/ is_Some (caps !! i)).
  { intros i. unfold caps0. destruct (decide (m = i)) as [->|N]; [rewrite lookup_insert; split; [auto|eauto]|]. rewrite lookup_insert_ne by exact N. split; [auto|]. intros [->|H]; [contradiction|exact H]. }
  destruct (e !! m) as [mems|] eqn:Em.
  - destruct (member_fold m mems best (order (dom mems)) stack seen caps0 Em) as (st & sn & cp & E & Ln & A & C & K & D & G & F).
    { intros i Hi. apply (order_dom order Hord), Hi. }
    rewrite E. apply (IH (m :: V)); [lia|]. destruct I as [I1 I2 I3 I4 I5].
    assert (W' : forall i, i ∈ V \/ i ∈ ids ((m, acc, parent) :: stack) -> i ∈ m :: V \/ i ∈ ids st).
    { intros i H. apply (W (fun _ => True)) in H as [H|H]; auto. }
    assert (Dm : forall i, i ∈ order (dom mems) <-> direct e m i).
    { intros i. rewrite (order_dom order Hord). unfold direct. rewrite Em. split; [eauto|]. intros (? & [= <-] & H). exact H. }
    assert (Seen' : forall x, x ∈ sn -> forall g mems i l d, e !! g = Some mems -> mems !! i = Some l -> d ∈ l -> d_sig d = x.1 ->
       d_delegate d ∈ m :: V \/ d_delegate d ∈ ids st).
    { intros x Hx g mems' i l d E1 E2 Hd S. apply F in Hx as [Hx|(j & l' & d' & F1 & F2 & F3 & F4)].
      - apply W'. eapply I4; eauto.
      - right. assert (d = d') as ->; [|exact F4]. eapply (proj2 HS); [exact E1|exact E2|exact Hd|exact Em|exact F1|exact F2|congruence]. }
    constructor.
    + intros i H. apply D in H as [H|H]; [apply I1; right; exact H|]. apply Dm in H. eapply tc_r; eauto.
    + intros i H. apply K in H as [H|H]; [apply K0 in H as [->|H]; [exact Bm|auto]|]. apply Dm in H. eapply tc_r; eauto.
    + intros i H. apply W', I3, H.
    + exact Seen'.
    + intros j Hj Nj. apply elem_of_cons in Hj as [->|Hj].
      * split; [apply K; left; apply K0; auto|]. intros i Di. apply Dm in Di. split; [apply K; auto|].
        destruct (G _ Di) as (d & l & k & El & Hd & Hs). destruct (proj1 HS _ _ _ _ Em El) as [_ Dl].
        rewrite <- (Dl _ Hd). eapply (Seen' _ Hs); [exact Em|exact El|exact Hd|reflexivity].
      * destruct (I5 _ Hj Nj) as [B1 B2]. split; [apply K; left; apply K0; auto|]. intros i Di. destruct (B2 _ Di) as [B3 B4].
        split; [apply K; left; apply K0; auto|apply W', B4].
  - apply (IH (m :: V)); [lia|]. destruct I as [I1 I2 I3 I4 I5]. constructor.
    + intros i H. apply I1. right. exact H.
    + intros i H. apply K0 in H as [->|H]; auto.
    + intros i D. apply (W (fun _ => True)), I3, D.
    + intros x Hx g mems i l d E1 E2 Hd S. apply (W (fun _ => True)). eapply I4; eauto.
    + intros j Hj Nj. apply elem_of_cons in Hj as [->|Hj].
      * split; [apply K0; auto|]. intros i (mems & Q & _). congruence.
      * destruct (I5 _ Hj Nj) as [A B]. split; [apply K0; auto|]. intros i D. destruct (B _ D) as [B1 B2]. split; [apply K0; auto|apply (W (fun _ => True)), B2].
Qed.
End transitive.

(** ** The fuel suffices *)
Definition universe (e : env) : gset (sig * nat) :=
  list_to_set (concat (map (fun d => [(d_sig d, 0); (d_sig d, 1); (d_sig d, 2); (d_sig d, 3)]) (concat (map all_dlgs (map snd (map_to_list e)))))).
Lemma universe_size e : size (universe e) <= 4 * length (concat (map all_dlgs (map snd (map_to_list e)))).
Proof.
  unfold universe. set (l := concat (map all_dlgs _)).
  assert (G : forall l : list (sig * nat), size (list_to_set l : gset (sig * nat)) <= length l).
  { induction l0 as [|x l0 IH]; [cbn; rewrite size_empty; lia|]. cbn [list_to_set length]. change (list_to_set (x :: l0)) with ({[ x ]} ∪ list_to_set l0 : gset (sig * nat)).
    pose proof (size_union_alt {[ x ]} (list_to_set l0 : gset (sig * nat))) as Q. rewrite size_singleton in Q.
    assert (S : size (list_to_set l0 ∖ {[x]} : gset (sig * nat)) <= size (list_to_set l0 : gset (sig * nat))) by (apply subseteq_size; set_solver).
    lia. }
  etransitivity; [apply G|]. clear. induction l as [|d l IH]; cbn [map concat]; [cbn; lia|]. rewrite app_length. cbn [length]. lia.
Qed.
Lemma universe_elem e g mems i l d k : e !! g = Some mems -> mems !! i = Some l -> d ∈ l -> (d_sig d, rank k) ∈ universe e.
Proof.
  intros E1 E2 Hd. unfold universe. apply elem_of_list_to_set, elem_of_list_In, in_concat. exists [(d_sig d, 0); (d_sig d, 1); (d_sig d, 2); (d_sig d, 3)].
  split; [|destruct k; cbn; auto 10]. apply in_map_iff. exists d. split; [reflexivity|]. apply in_concat. exists (all_dlgs mems). split.
  - apply in_map, in_map_iff. exists (g, mems). split; [reflexivity|]. apply elem_of_list_In, elem_of_map_to_list, E1.
  - apply in_concat. exists l. split; [|apply elem_of_list_In, Hd]. apply in_map_iff. exists (i, l). split; [reflexivity|].
    apply elem_of_list_In, elem_of_map_to_list, E2.
Qed.
Lemma omap_length {A B} (f : A -> option B) l : length (omap f l) <= length l.
Proof. induction l as [|x l IH]; cbn; [lia|]. destruct (f x); cbn; lia. Qed.
Lemma transitive_members_spec order e self mems : some_order order -> sane e -> e !! self = Some mems ->
  exists caps, transitive_members order e self mems = Some caps /\ forall i, i <> self -> is_Some (caps !! i) <-> belongs e self i.
Proof.
  intros Hord HS Es. unfold transitive_members. set (cs := omap (get_capability mems) (order (dom mems))).
  assert (Hc : forall c, c ∈ cs -> exists l, mems !! d_delegate c = Some l /\ c ∈ l).
  { intros c H. apply elem_of_list_omap in H as (i & _ & E). unfold get_capability in E. destruct (mems !! i) as [l|] eqn:El; [|discriminate].
    apply best_dlg_in in E. destruct (proj1 HS _ _ _ _ Es El) as [_ D]. exists l. split; [rewrite (D _ E); exact El|exact E]. }
  assert (Hi : forall i, direct e self i -> exists c, c ∈ cs /\ d_delegate c = i).
  { intros i (mems' & E' & l & El). rewrite Es in E'. injection E' as <-. destruct (proj1 HS _ _ _ _ Es El) as [N D].
    destruct (best_dlg_some l N) as [c Ec]. exists c. split; [|apply D, best_dlg_in, Ec]. apply elem_of_list_omap. exists i.
    split; [apply (order_dom order Hord); eauto|]. unfold get_capability. rewrite El. exact Ec. }
  assert (Hids : forall i, i ∈ ids (reverse (map (fun d => (d_delegate d, d_can d, Admin)) cs)) <-> exists c, c ∈ cs /\ d_delegate c = i).
  { intros i. unfold ids. rewrite elem_of_list_fmap. split.
    - intros (x & -> & H). rewrite elem_of_reverse in H. apply elem_of_list_fmap in H as (c & -> & H). eauto.
    - intros (c & H & <-). exists (d_delegate c, d_can c, Admin). split; [reflexivity|]. rewrite elem_of_reverse. apply elem_of_list_fmap. eauto. }
  assert (Dr : forall c, c ∈ cs -> direct e self (d_delegate c)).
  { intros c H. destruct (Hc c H) as (l & El & _). exists mems. split; [exact Es|eauto]. }
  eapply (transitive_search order Hord e self (universe e) HS (universe_elem e) _ []).
  - rewrite reverse_length, map_length. unfold left_over, transitive_fuel.
    pose proof (omap_length (get_capability mems) (order (dom mems))) as L1. fold cs in L1.
    rewrite (Permutation_length (Hord (dom mems))) in L1. change (length (elements (dom mems))) with (size (dom mems)) in L1. rewrite size_dom in L1.
    pose proof (universe_size e) as L2. set (X := list_to_set _).
    assert (L3 : size (universe e ∖ X) <= size (universe e)) by (apply subseteq_size; set_solver). lia.
  - constructor.
    + intros i H. apply Hids in H as (c & H & <-). apply tc_once, Dr, H.
    + intros i [x H]. rewrite lookup_empty in H. discriminate.
    + intros i D. right. apply Hids, Hi, D.
    + intros x Hx g mems' i l d E1 E2 Hd S. right. apply elem_of_list_to_set, elem_of_list_fmap in Hx as (c & -> & Hx). cbn in S.
      destruct (Hc c Hx) as (lc & Elc & Hlc). apply Hids. exists c. split; [exact Hx|]. f_equal.
      eapply (proj2 HS); [exact Es|exact Elc|exact Hlc|exact E1|exact E2|exact Hd|auto].
    + intros m H. inversion H.
Qed.

(** ** Individuals *)
Section individuals.
Context (order : gset nat -> list nat) (Hord : some_order order) (e : env) (HS : sane e) (start : ident).
Definition pushed (mems : gmap ident (list dlg)) : list ident := map d_delegate (concat (omap (mems !!.) (order (dom mems)))).
Lemma pushed_elem m mems i : e !! m = Some mems -> i ∈ pushed mems <-> direct e m i.
Proof.
  intros E. unfold pushed, direct. rewrite elem_of_list_fmap. split.
  - intros (d & -> & H). apply elem_of_list_In, in_concat in H as (l & Hl & Hd). apply elem_of_list_In, elem_of_list_omap in Hl as (j & _ & Ej).
    destruct (proj1 HS _ _ _ _ E Ej) as [_ D]. apply elem_of_list_In in Hd. rewrite (D _ Hd). eauto.
  - intros (mems' & E' & l & El). rewrite E in E'. injection E' as <-. destruct (proj1 HS _ _ _ _ E El) as [N D].
    destruct l as [|d l]; [contradiction|]. exists d. split; [symmetry; apply D; left|]. apply elem_of_list_In, in_concat. exists (d :: l).
    split; [|left; reflexivity]. apply elem_of_list_In, elem_of_list_omap. exists i. split; [apply (order_dom order Hord); eauto|exact El].
Qed.
Lemma omap_perm {A B} (f : A -> option B) l l' : l ≡ₚ l' -> omap f l ≡ₚ omap f l'.
Proof. intros P. rewrite P. reflexivity. Qed.
Lemma concat_perm {A} (l l' : list (list A)) : l ≡ₚ l' -> concat l ≡ₚ concat l'.
Proof.
  induction 1 as [|x l l' P IH|x y l|l l1 l2 P1 IH1 P2 IH2]; cbn; [reflexivity|rewrite IH; reflexivity| |etransitivity; eassumption].
  rewrite !app_assoc. apply Permutation_app_tail, Permutation_app_comm.
Qed.
Lemma pushed_length mems : length (pushed mems) = length (all_dlgs mems).
Proof.
  unfold pushed, all_dlgs. rewrite map_length. apply Permutation_length, concat_perm.
  rewrite (omap_perm _ _ _ (Hord (dom mems))). rewrite (omap_perm _ _ (map_to_list mems).*1).
  - assert (G : forall l : list (ident * list dlg), (forall x, x ∈ l -> mems !! x.1 = Some x.2) -> omap (mems !!.) l.*1 = map snd l).
    { induction l as [|x l IH]; intros H; [reflexivity|]. cbn. rewrite (H x) by left. f_equal. apply IH. intros y Hy. apply H. right. exact Hy. }
    rewrite G; [reflexivity|]. intros [j l] H. apply elem_of_map_to_list in H. exact H.
  - apply NoDup_Permutation; [apply NoDup_elements|apply NoDup_fst_map_to_list|]. intros x. rewrite elem_of_elements, elem_of_dom, elem_of_list_fmap. split.
    + intros [l H]. exists (x, l). split; [reflexivity|apply elem_of_map_to_list, H].
    + intros ([j l] & -> & H). apply elem_of_map_to_list in H. cbn. eauto.
Qed.
Definition weight (seen : gset ident) (l : list (ident * gmap ident (list dlg))) : nat :=
  foldr (fun x n => (if decide (x.1 ∈ seen) then 0 else length (all_dlgs x.2)) + n) 0 l.
Lemma weight_mono seen i l : weight ({[ i ]} ∪ seen) l <= weight seen l.
Proof.
  induction l as [|x l IH]; unfold weight in *; cbn [foldr]; [lia|].
  destruct (decide (x.1 ∈ seen)) as [Y|N], (decide (x.1 ∈ {[i]} ∪ seen)) as [Y'|N']; try lia. exfalso. apply N', elem_of_union. auto.
Qed.
Lemma weight_visit seen i mems l : i ∉ seen -> (i, mems) ∈ l -> weight ({[ i ]} ∪ seen) l + length (all_dlgs mems) <= weight seen l.
Proof.
  intros N H. induction l as [|x l IH]; [inversion H|]. pose proof (weight_mono seen i l) as M. unfold weight in *. cbn [foldr]. apply elem_of_cons in H as [<-|H].
  - cbn [fst snd]. destruct (decide (i ∈ seen)) as [Y|_]; [contradiction|]. destruct (decide (i ∈ {[i]} ∪ seen)) as [_|N']; [lia|].
    exfalso. apply N', elem_of_union. left. apply elem_of_singleton. reflexivity.
  - specialize (IH H). destruct (decide (x.1 ∈ seen)) as [Y|Ny], (decide (x.1 ∈ {[i]} ∪ seen)) as [Y'|N']; try lia. exfalso. apply N', elem_of_union. auto.
Qed.
Lemma weight_start l : weight ∅ l = length (concat (map all_dlgs (map snd l))).
Proof.
  induction l as [|x l IH]; [reflexivity|]. unfold weight in *. cbn [foldr map concat]. rewrite app_length, IH.
  destruct (decide (x.1 ∈ ∅)) as [Y|_]; [apply not_elem_of_empty in Y; contradiction|reflexivity].
Qed.

Record walking (stack : list ident) (seen out : gset ident) : Prop := {
  wk_stack : forall i, i ∈ stack -> rtc (direct e) start i;
  wk_seen : forall i, i ∈ seen -> rtc (direct e) start i;
  wk_start : start ∈ seen \/ start ∈ stack;
  wk_next : forall i j, i ∈ seen -> direct e i j -> j ∈ seen \/ j ∈ stack;
  wk_out : forall i, i ∈ out <-> i ∈ seen /\ e !! i = None
}.
Lemma walk_end seen out : walking [] seen out -> forall i, i ∈ out <-> rtc (direct e) start i /\ e !! i = None.
Proof.
  intros I i. assert (G : forall j, rtc (direct e) start j -> j ∈ seen).
  { apply rtc_ind_r.
    - destruct (wk_start _ _ _ I) as [H|H]; [exact H|inversion H].
    - intros y z _ D Hy. destruct (wk_next _ _ _ I _ _ Hy D) as [H|H]; [exact H|inversion H]. }
  rewrite (wk_out _ _ _ I). split; intros [A B]; (split; [|exact B]); [apply (wk_seen _ _ _ I), A|apply G, A].
Qed.
Lemma walk_spec f stack seen out : length stack + weight seen (map_to_list e) <= f -> walking stack seen out ->
  exists r, individual_loop order f e stack seen out = Some r /\ forall i, i ∈ r <-> rtc (direct e) start i /\ e !! i = None.
Proof.
  revert stack seen out. induction f as [|f IH]; intros [|i stack] seen out L I.
  1,3: exists out; split; [reflexivity|apply (walk_end _ _ I)].
  { cbn in L. lia. }
  cbn [individual_loop]. cbn [length] in L. destruct (decide (i ∈ seen)) as [Y|N].
  - apply IH; [lia|]. destruct I as [I1 I2 I3 I4 I5]. constructor; auto.
    + intros j H. apply I1. right. exact H.
    + destruct I3 as [H|H]; [auto|]. apply elem_of_cons in H as [->|H]; auto.
    + intros a b Ha D. destruct (I4 _ _ Ha D) as [H|H]; [auto|]. apply elem_of_cons in H as [->|H]; auto.
  - assert (Ri : rtc (direct e) start i) by (apply (wk_stack _ _ _ I); left). cbv zeta.
    assert (Si : forall j, j ∈ {[ i ]} ∪ seen <-> j = i \/ j ∈ seen) by (intros j; rewrite elem_of_union, elem_of_singleton; reflexivity).
    destruct (e !! i) as [mems|] eqn:Ei.
    + fold (pushed mems). apply IH.
      * rewrite app_length, reverse_length, pushed_length. assert (H : (i, mems) ∈ map_to_list e) by (apply elem_of_map_to_list, Ei).
        pose proof (weight_visit seen i mems _ N H). lia.
      * destruct I as [I1 I2 I3 I4 I5]. constructor.
        -- intros j H. apply elem_of_app in H as [H|H]; [|apply I1; right; exact H]. rewrite elem_of_reverse in H.
           apply (pushed_elem i) in H; [|exact Ei]. eapply rtc_r; eauto.
        -- intros j H. apply Si in H as [->|H]; auto.
        -- destruct I3 as [H|H]; [left; apply Si; auto|]. apply elem_of_cons in H as [->|H]; [left; apply Si; auto|right; apply elem_of_app; auto].
        -- intros a b Ha D. apply Si in Ha as [->|Ha].
           ++ right. apply elem_of_app. left. rewrite elem_of_reverse. apply (pushed_elem i); auto.
           ++ destruct (I4 _ _ Ha D) as [H|H]; [left; apply Si; auto|]. apply elem_of_cons in H as [->|H]; [left; apply Si; auto|right; apply elem_of_app; auto].
        -- intros j. rewrite I5, Si. split; [tauto|]. intros [[->|H] Q]; [congruence|auto].
    + apply IH; [pose proof (weight_mono seen i (map_to_list e)); lia|]. destruct I as [I1 I2 I3 I4 I5]. constructor.
      * intros j H. apply I1. right. exact H.
      * intros j H. apply Si in H as [->|H]; auto.
      * destruct I3 as [H|H]; [left; apply Si; auto|]. apply elem_of_cons in H as [->|H]; [left; apply Si; auto|auto].
      * intros a b Ha D. apply Si in Ha as [->|Ha]; [destruct D as (? & Q & _); congruence|].
        destruct (I4 _ _ Ha D) as [H|H]; [left; apply Si; auto|]. apply elem_of_cons in H as [->|H]; [left; apply Si; auto|auto].
      * intros j. rewrite elem_of_union, elem_of_singleton, I5, Si. split; [intros [->|[A B]]; auto|]. intros [[->|H] Q]; auto.
Qed.
Lemma individual_ids_spec : exists r, individual_ids order e start = Some r /\ forall i, i ∈ r <-> rtc (direct e) start i /\ e !! i = None.
Proof.
  apply walk_spec; [rewrite weight_start; cbn; lia|]. constructor.
  - intros i H. apply elem_of_list_singleton in H as ->. apply rtc_refl.
  - intros i H. apply not_elem_of_empty in H. contradiction.
  - right. left.
  - intros i j H. apply not_elem_of_empty in H. contradiction.
  - intros i. split; [intros H; apply not_elem_of_empty in H; contradiction|intros [H _]; apply not_elem_of_empty in H; contradiction].
Qed.
End individuals.
Lemma rtc_belongs e a i : rtc (direct e) a i <-> i = a \/ belongs e a i.
Proof.
  split.
  - induction 1 as [|a b c D R [->|IH]]; [auto|right; apply tc_once, D|right; eapply tc_l; eauto].
  - intros [->|B]; [apply rtc_refl|apply tc_rtc, B].
Qed.
Lemma group_individual_ids_spec order e self mems : some_order order -> sane e -> e !! self = Some mems ->
  exists r, group_individual_ids order e mems = Some r /\ forall i, i ∈ r <-> belongs e self i /\ e !! i = None.
Proof.
  intros Hord HS Es. unfold group_individual_ids.
  assert (G : forall xs acc, (forall x, x ∈ xs -> is_Some (mems !! x)) -> exists r,
    foldl (fun acc i => match acc, mems !! i with
           | Some s, Some (d :: _) => match individual_ids order e (d_delegate d) with Some s' => Some (s' ∪ s) | None => None end
           | Some s, _ => Some s
           | None, _ => None
           end) (Some acc) xs = Some r /\ forall i, i ∈ r <-> i ∈ acc \/ exists x, x ∈ xs /\ rtc (direct e) x i /\ e !! i = None).
  { induction xs as [|x xs IH]; intros acc H; cbn [foldl].
    - exists acc. split; [reflexivity|]. intros i. split; [auto|]. intros [A|(x & A & _)]; [exact A|inversion A].
    - destruct (H x) as [l El]; [left|]. rewrite El. destruct (proj1 HS _ _ _ _ Es El) as [N D]. destruct l as [|d l]; [contradiction|].
      rewrite (D d) by left. destruct (individual_ids_spec order Hord e HS x) as (s' & Q & S'). rewrite Q.
      destruct (IH (s' ∪ acc)) as (r & Er & R); [intros y Hy; apply H; right; exact Hy|]. exists r. split; [exact Er|]. intros i. rewrite R, elem_of_union, S'. split.
      + intros [[A|A]|(y & Hy & A)]; [right; exists x; split; [left|exact A]|auto|right; exists y; split; [right; exact Hy|exact A]].
      + intros [A|(y & Hy & A)]; [auto|]. apply elem_of_cons in Hy as [->|Hy]; [auto|right; eauto]. }
  destruct (G (order (dom mems)) ∅) as (r & Er & R); [intros x H; apply (order_dom order Hord), H|]. exists r. split; [exact Er|].
  intros i. rewrite R. split.
  - intros [A|(x & Hx & Rx & Q)]; [apply not_elem_of_empty in A; contradiction|]. split; [|exact Q]. apply (order_dom order Hord) in Hx.
    assert (D : direct e self x) by (exists mems; auto). apply rtc_belongs in Rx as [->|B]; [apply tc_once, D|eapply tc_l; eauto].
  - intros [B Q]. right. inversion B as [x y D|x y z D B']; subst.
    + exists i. split; [|split; [apply rtc_refl|exact Q]]. destruct D as (m & E & D). rewrite Es in E. injection E as <-. apply (order_dom order Hord), D.
    + exists y. split; [|split; [apply tc_rtc, B'|exact Q]]. destruct D as (m & E & D). rewrite Es in E. injection E as <-. apply (order_dom order Hord), D.
Qed.
Lemma prekey_individuals_spec order e self public mems : some_order order -> sane e -> e !! self = Some mems -> e !! public = None ->
  exists r, prekey_individuals order e self public mems = Some r /\ forall i, i ∈ r <-> belongs e self i /\ e !! i = None.
Proof.
  intros Hord HS Es Ep. destruct (transitive_members_spec order e self mems Hord HS Es) as (caps & Q & K). unfold prekey_individuals. rewrite Q.
  assert (Sub : forall x, is_Some (caps !! x) -> x <> self -> belongs e self x) by (intros x Hx N; apply K; auto).
  assert (G : forall xs acc, exists r,
    foldl (fun acc i => match acc with
               | Some s => if i =? public then Some ({[ public ]} ∪ s)
                           else match individual_ids order e i with Some s' => Some (s' ∪ s) | None => None end
               | None => None
               end) (Some acc) xs = Some r /\ forall i, i ∈ r <-> i ∈ acc \/ exists x, x ∈ xs /\ rtc (direct e) x i /\ e !! i = None).
  { induction xs as [|x xs IH]; intros acc; cbn [foldl].
    - exists acc. split; [reflexivity|]. intros i. split; [auto|]. intros [A|(x & A & _)]; [exact A|inversion A].
    - assert (S' : exists s', (if x =? public then Some ({[ public ]} ∪ acc) else match individual_ids order e x with Some s' => Some (s' ∪ acc) | None => None end) = Some (s' ∪ acc) /\
        forall i, i ∈ s' <-> rtc (direct e) x i /\ e !! i = None).
      { destruct (Nat.eqb_spec x public) as [->|N].
        - exists {[ public ]}. split; [reflexivity|]. intros i. rewrite elem_of_singleton. split; [intros ->; split; [apply rtc_refl|exact Ep]|].
          intros [R _]. inversion R as [|a b c D]; subst; [reflexivity|]. destruct D as (m & E & _). congruence.
        - destruct (individual_ids_spec order Hord e HS x) as (s' & E' & S'). rewrite E'. eauto. }
      destruct S' as (s' & E' & S'). rewrite E'.
      destruct (IH (s' ∪ acc)) as (r & Er & R). exists r. split; [exact Er|]. intros i. rewrite R, elem_of_union, S'. split.
      + intros [[A|A]|(y & Hy & A)]; [right; exists x; split; [left|exact A]|auto|right; exists y; split; [right; exact Hy|exact A]].
      + intros [A|(y & Hy & A)]; [auto|]. apply elem_of_cons in Hy as [->|Hy]; [auto|right; eauto]. }
  destruct (G (order (dom caps)) ∅) as (r & Er & R). exists r. split; [exact Er|].
  assert (Si : forall i, e !! i = None -> i <> self) by (intros i E ->; congruence).
  intros i. rewrite R. split.
  - intros [A|(x & Hx & Rx & E)]; [apply not_elem_of_empty in A; contradiction|]. split; [|exact E]. apply (order_dom order Hord) in Hx.
    destruct (decide (x = self)) as [->|N].
    + apply rtc_belongs in Rx as [->|B]; [congruence|exact B].
    + pose proof (Sub x Hx N) as B. apply rtc_belongs in Rx as [->|B']; [exact B|]. eapply tc_transitive; eauto.
  - intros [B E]. right. exists i. split; [|split; [apply rtc_refl|exact E]]. apply (order_dom order Hord), K; [apply Si, E|exact B].
Qed.
