(** What a group looks at outside itself when it takes operations, and the operations that the calls
    make one by one. *)
From Coq Require Import Arith Lia.
From stdpp Require Import base list gmap relations.
From Verif Require Import AccessModel GroupModel CgkaSpec GroupSpec GroupHistory GroupTransitive GroupPropsProofs PrekeyModel HiveModel HiveSpec ArchiveSpec ArchiveProofs.

Notation env := (gmap ident (gmap ident (list dlg))).

Section local.
Context (order : gset nat -> list nat) (Hord : some_order order).

(** ** Who belongs to a group depends on what is below it only *)

Lemma loop_more e self f : forall f' stack seen caps r, transitive_loop order f e self stack seen caps = Some r -> f <= f' ->
  transitive_loop order f' e self stack seen caps = Some r.
Proof.
  induction f as [|f IH]; intros f' stack seen caps r E L; destruct stack as [|[[m acc] par] stack]; try (destruct f'; exact E); [discriminate|].
  destruct f' as [|f']; [lia|]. rewrite transitive_unfold in E |- *. destruct (m =? self); [eapply IH; eauto; lia|]. cbv zeta in *.
  destruct (e !! m) as [mems|]; [|eapply IH; eauto; lia].
  destruct (foldl _ _ _) as [[st se] ca]. eapply IH; eauto; lia.
Qed.
Lemma push_ids k best l : forall stack seen m, m ∈ ids (foldl (push_step k best) (stack, seen) l).1 -> m ∈ ids stack \/ exists d, d ∈ l /\ d_delegate d = m.
Proof.
  induction l as [|d l IH]; intros stack seen m H; cbn [foldl] in H; [left; exact H|]. unfold push_step at 2 in H. destruct (decide _).
  - apply IH in H as [H|(x & Hx & E)]; [auto|]. right. exists x. split; [right; exact Hx|exact E].
  - apply IH in H as [H|(x & Hx & E)]; [|right; exists x; split; [right; exact Hx|exact E]].
    cbn in H. apply elem_of_cons in H as [->|H]; [right; exists d; split; [left|reflexivity]|auto].
Qed.
Lemma member_ids mems best xs : forall st m, m ∈ ids (foldl (member_step mems best) st xs).1.1 -> m ∈ ids st.1.1 \/ exists i l d, mems !! i = Some l /\ d ∈ l /\ d_delegate d = m.
Proof.
  induction xs as [|i xs IH]; intros st m H; cbn [foldl] in H; [left; exact H|]. apply IH in H as [H|H]; [|auto].
  destruct st as [[st se] ca]. unfold member_step in H. destruct (get_capability mems i) as [c|] eqn:C; [|left; exact H].
  pose proof (push_ids (rank (d_can c)) best (default [] (mems !! i)) st se m) as X. destruct (foldl _ _ _) as [st' se']. cbn [fst snd] in *.
  apply X in H as [H|(d & Hd & E)]; [auto|]. destruct (mems !! i) as [l|] eqn:L; [|inversion Hd]. right. exists i, l, d. auto.
Qed.
(** [e'] says the same as [e] of everything that is reached from the stack. *)
Lemma loop_agree e e' self f : sane e -> forall stack seen caps,
  (forall m x, m ∈ ids stack -> rtc (direct e) m x -> e !! x = e' !! x) ->
  transitive_loop order f e self stack seen caps = transitive_loop order f e' self stack seen caps.
Proof.
  intros S. induction f as [|f IH]; intros stack seen caps A; destruct stack as [|[[m acc] par] stack]; try reflexivity.
  rewrite !transitive_unfold.
  assert (A0 : forall k x, k ∈ ids stack -> rtc (direct e) k x -> e !! x = e' !! x) by (intros k x Hk; apply A; right; exact Hk).
  destruct (m =? self); [apply IH, A0|]. cbv zeta. rewrite <- (A m m) by (constructor; constructor). destruct (e !! m) as [mems|] eqn:M; [|apply IH, A0].
  match goal with |- context [foldl ?F ?s ?l] => pose proof (member_ids mems (match caps !! m with Some x => amax x acc | None => acc end) (order (dom mems)) s) as X; destruct (foldl F s l) as [[st se] ca] eqn:F1 end.
  cbn [fst snd] in X. apply IH. intros k x Hk R. apply X in Hk as [Hk|(i & l & d & L & Hd & Ed)]; [apply (A0 k x Hk R)|].
  apply (A m x); [left|]. eapply rtc_l; [|exact R]. exists mems. split; [exact M|]. rewrite <- Ed, (proj2 (proj1 S _ _ _ _ M L) d Hd). eauto.
Qed.
Lemma members_agree e e' self mems : sane e -> sane e' -> e !! self = Some mems -> (forall x, rtc (direct e) self x -> e !! x = e' !! x) ->
  transitive_members order e' self mems = transitive_members order e self mems.
Proof.
  intros S S' E A. assert (E' : e' !! self = Some mems) by (rewrite <- A by constructor; exact E).
  destruct (transitive_members_spec order e self mems Hord S E) as (c & Ec & _). destruct (transitive_members_spec order e' self mems Hord S' E') as (c' & Ec' & _).
  rewrite Ec, Ec'. unfold transitive_members in Ec, Ec'. rewrite <- (loop_agree e e' self) in Ec'; [|exact S|].
  - apply (loop_more _ _ _ (max (transitive_fuel e mems) (transitive_fuel e' mems))) in Ec; [|lia]. apply (loop_more _ _ _ (max (transitive_fuel e mems) (transitive_fuel e' mems))) in Ec'; [|lia]. congruence.
  - intros m x Hm R. apply A. eapply rtc_l; [|exact R]. exists mems. split; [exact E|].
    unfold ids in Hm. apply elem_of_list_fmap in Hm as ([[m0 a] p] & -> & Hm). rewrite elem_of_reverse in Hm. apply elem_of_list_fmap in Hm as (d & Q & Hd). injection Q as -> _ _.
    cbn [fst]. apply elem_of_list_omap in Hd as (i & _ & C). unfold get_capability in C. destruct (mems !! i) as [l|] eqn:L; [|discriminate]. apply best_dlg_in in C. rewrite (proj2 (proj1 S _ _ _ _ E L) d C). eauto.
Qed.

(** ** Taking operations *)

(** [e'] says the same as [e] of everything but [gid]. *)
Definition off (gid : ident) (e e' : env) : Prop := is_Some (e !! gid) /\ is_Some (e' !! gid) /\ forall x, x <> gid -> e !! x = e' !! x.
Lemma off_reach gid e e' D mems : sane e -> off gid e e' -> e !! D = Some mems -> locks_group order e gid D = false -> forall x, rtc (direct e) D x -> e !! x = e' !! x.
Proof.
  intros S (_ & _ & O) E L x R. apply O. intros ->. unfold locks_group in L. rewrite E in L. apply orb_false_iff in L as [L1 L2]. apply Nat.eqb_neq in L1.
  destruct (transitive_members_spec order e D mems Hord S E) as (c & Ec & Hc). rewrite Ec in L2. apply bool_decide_eq_false in L2. apply L2, Hc; [congruence|].
  apply rtc_belongs in R as [->|R]; [contradiction|exact R].
Qed.
Lemma locks_agree gid e e' D : sane e -> sane e' -> off gid e e' -> locks_group order e gid D = false ->
  locks_group order e' gid D = false /\ forall i can, is_transitive_member_of order e' D i can = is_transitive_member_of order e D i can.
Proof.
  intros S S' O L. destruct (e !! D) as [mems|] eqn:E.
  - pose proof (off_reach gid e e' D mems S O E L) as R. assert (E' : e' !! D = Some mems) by (rewrite <- (R D) by constructor; exact E).
    unfold locks_group, is_transitive_member_of in *. rewrite E' in *. rewrite E in *. rewrite (members_agree e e' D mems S S' E R). split; [exact L|reflexivity].
  - assert (N : D <> gid) by (intros ->; destruct O as ([? X] & _); congruence). pose proof (proj2 (proj2 O) D N) as Q. unfold locks_group, is_transitive_member_of. rewrite <- Q, E. split; reflexivity.
Qed.
Lemma chain_agree gid e e' can : sane e -> sane e' -> off gid e e' -> forall lin head, chain_hangs order e gid can head lin = false ->
  chain_hangs order e' gid can head lin = false /\ check_chain order e' can head lin = check_chain order e can head lin.
Proof.
  intros S S' O. induction lin as [|p lin IH]; intros head H; cbn in H |- *; [auto|].
  destruct (ale can (d_can p)); cbn [negb] in *; [|auto]. destruct (d_issuer head =? d_delegate p); cbn [negb andb]; [apply IH, H|].
  destruct (locks_group order e gid (d_delegate p)) eqn:L; [discriminate|]. destruct (locks_agree gid e e' _ S S' O L) as [-> ->].
  destruct (is_transitive_member_of order e (d_delegate p) (d_issuer head) can); cbn [negb] in *; [apply IH, H|auto].
Qed.

(** An operation of either kind is taken. *)
Definition take (e : env) (g : group) (o : mop) : gres group := match o with MD d => receive_delegation order e g d | MR r => receive_revocation order e g r end.
Definition op_hangs (e : env) (g : group) (o : mop) : bool := match o with MD d => delegation_hangs order e g d | MR r => revocation_hangs order e g r end.
Lemma take_agree e e' g o : sane e -> sane e' -> off (gr_id g) e e' -> op_hangs e g o = false ->
  op_hangs e' g o = false /\ take e' g o = take e g o.
Proof.
  intros S S' O H. destruct o as [d|r]; cbn [take op_hangs] in *.
  - unfold delegation_hangs, receive_delegation, add_delegation in *. destruct (d_subject d =? gr_id g); cbn [andb negb] in *; [|auto].
    destruct (chain_agree (gr_id g) e e' (d_can d) S S' O _ _ H) as [-> ->]. auto.
  - unfold revocation_hangs, receive_revocation, add_revocation in *. destruct (r_subject r =? gr_id g); cbn [andb negb] in *; [|auto].
    destruct (r_proof r) as [p|]; [|auto].
    destruct (dlg_eqb (r_revoke r) p); cbn [orb andb negb] in *.
    { destruct (chain_agree (gr_id g) e e' (d_can p) S S' O _ _ H) as [-> ->]. auto. }
    destruct (is_descendant_of (r_revoke r) p); cbn [orb andb negb] in *.
    { destruct (chain_agree (gr_id g) e e' (d_can p) S S' O _ _ H) as [-> ->]. auto. }
    destruct (locks_group order e (gr_id g) (d_delegate p)) eqn:L; [discriminate|]. destruct (locks_agree (gr_id g) e e' _ S S' O L) as [-> ->].
    destruct (is_transitive_member_of order e (d_delegate p) (r_issuer r) (d_can (r_revoke r))); cbn [negb] in *; [|auto].
    destruct (chain_agree (gr_id g) e e' (d_can p) S S' O _ _ H) as [-> ->]. auto.
Qed.
Lemma take_id e g o g' : take e g o = GOk g' -> gr_id g' = gr_id g.
Proof.
  intros H. assert (X : exists g0, gr_id g0 = gr_id g /\ rebuild order g0 = Some g').
  { destruct o as [d|r]; cbn [take] in H; [unfold receive_delegation, add_delegation in H|unfold receive_revocation, add_revocation in H];
      repeat match type of H with context [if ?b then GErr _ else _] => destruct b; [discriminate|] end.
    - destruct (check_chain _ _ _ _ _); [discriminate|]. cbn [rebuilt] in H. destruct (rebuild _ _) eqn:R; [|discriminate]. injection H as <-. eexists; split; [|exact R]; reflexivity.
    - match type of H with context [match ?m with Some er => GErr er | None => _ end] => destruct m; [discriminate|] end. cbn [rebuilt] in H. destruct (rebuild _ _) eqn:R; [|discriminate]. injection H as <-. eexists; split; [|exact R]; reflexivity. }
  destruct X as (g0 & E & R). rewrite <- E. apply (rebuild_keeps _ _ _ R).
Qed.
Lemma take_forget e g o : take e (forget_group g) o = take e g o.
Proof. destruct o; [apply forget_receive_delegation|apply forget_receive_revocation]. Qed.
Lemma take_like e g g2 o : forget_group g = forget_group g2 -> take e g o = take e g2 o.
Proof. intros E. rewrite <- (take_forget e g), E. apply take_forget. Qed.

(** Operations made one after the other, each resting on what is there. *)
Inductive trail (e : env) : list mop -> group -> list mop -> group -> Prop :=
| trail_nil ops g : trail e ops g [] g
| trail_cons ops g o g1 l g' : (forall p, p ∈ parents o -> p ∈ ops) -> take e g o = GOk g1 -> trail e (o :: ops) g1 l g' -> trail e ops g (o :: l) g'.
Lemma trail_app e ops g l g1 l' g' : trail e ops g l g1 -> trail e (reverse l ++ ops) g1 l' g' -> trail e ops g (l ++ l') g'.
Proof.
  induction 1 as [ops g|ops g o g1 l g2 Hp T Tr IH]; intros T'; [exact T'|]. cbn. econstructor; [exact Hp|exact T|]. apply IH. rewrite reverse_cons, <- app_assoc in T'. exact T'.
Qed.
Lemma trail_history e ops g l g' : trail e ops g l g' -> history order ops g -> history order (reverse l ++ ops) g'.
Proof.
  induction 1 as [ops g|ops g o g1 l g2 Hp T Tr IH]; intros H; [exact H|]. rewrite reverse_cons, <- app_assoc. apply IH. destruct o as [d|r]; [eapply h_delegation|eapply h_revocation]; eauto.
Qed.
Lemma trail_like e ops g l g' g2 : trail e ops g l g' -> forget_group g = forget_group g2 -> exists g2', trail e ops g2 l g2' /\ forget_group g' = forget_group g2'.
Proof.
  destruct 1 as [ops g|ops g o g1 l g' Hp T Tr]; intros E; [exists g2; split; [constructor|exact E]|].
  exists g'. split; [|reflexivity]. econstructor; [exact Hp| |exact Tr]. rewrite <- (take_like _ _ _ _ E). exact T.
Qed.
End local.
