(** Taking over an archive into a new client. *)
From Coq Require Import Arith Lia.
From stdpp Require Import base list gmap relations sorting.
From Verif Require Import AccessModel GroupModel CgkaSpec GroupSpec GroupReplay GroupMembers GroupHistory GroupTransitive GroupPropsProofs PrekeyModel HiveModel HiveSpec HiveProofs HivePropsProofs.
From Verif Require Import SyncModel SyncProofs ArchiveModel ArchiveSpec ArchiveProofs.

Lemma event_of_stored {cop} (o : mop) : event_of (cop := cop) (stored_op o) = static_of o.
Proof. destruct o; reflexivity. Qed.

Section takeover.
Context (order order' : gset nat -> list nat) (O : some_order order) (O' : some_order order') (doc_content : nat -> ident -> bool).
Context {cg cop : Type} `{EqDecision cop}.
Context (cop_doc : cop -> ident) (cop_ok : cop -> bool) (cg_receive : kstore -> cg -> cop -> cg * bool) (shuffle : list (sevent cop) -> list (sevent cop)) (Sh : forall l, shuffle l ≡ₚ l).
Context (W : sevent cop -> Prop) (K : ident -> Prop) (T : tame W K).
Context (h : hive cg cop) (C : caught_up order doc_content W K W h).
Context (ops : list mop) (Hops : forall o, o ∈ ops <-> has_op h o).
Context (r0 : hive cg cop) (Bl : blank r0).
Context (Me : known_agent r0 (ks_active (h_keys h)) = true) (Us : forall i, is_Some (ks_indies (h_keys h) !! i) -> known_agent r0 i = true).
Context (People : forall i, owner W i -> known_agent r0 i = false).
Notation evs := (map (static_of (cop := cop)) ops).
Notation W' := (handed [evs]).
Notation K' := (fun i => known_agent r0 i = true).
Let I := cu_inv _ _ _ _ _ _ C.

Lemma all_evs x : W' x <-> exists o, has_op h o /\ x = static_of o.
Proof.
  split.
  - intros (b & Hb & Hx). apply elem_of_list_singleton in Hb as ->. apply elem_of_list_fmap in Hx as (o & -> & Ho). exists o. split; [apply Hops, Ho|reflexivity].
  - intros (o & Ho & ->). exists evs. split; [left|]. apply elem_of_list_fmap. exists o. split; [reflexivity|apply Hops, Ho].
Qed.
Lemma all_known o : has_op h o -> W (static_of o).
Proof.
  intros Ho. pose proof (iv_sup _ _ _ _ _ I o Ho) as S. destruct S as [x p rs Wx Ok Ep Er _ _ _ _|x t p Wx Ok Et Ep _ _ _]; cbn [static_of dlg_of rev_of d_sig d_issuer d_delegate d_can d_proof d_after d_content r_sig r_issuer r_revoke r_proof r_content].
  - rewrite Ep, Er, <- Ok. destruct x. exact Wx.
  - rewrite Et, Ep, <- Ok. destruct x. exact Wx.
Qed.
Lemma all_from o : from_events W' o -> from_events W o.
Proof.
  revert o. fix IH 2. intros o [x p rs Wx Ep Er Hp Hr|x t p Wx Et Ep Ht Hp].
  - apply from_dlg; [|exact Ep|exact Er|intros q Hq; apply IH, Hp, Hq|intros q Hq; apply IH, Hr, Hq]. apply all_evs in Wx as (y & Ho & ->). apply all_known, Ho.
  - apply from_rev; [|exact Et|exact Ep|apply IH, Ht|intros q Hq; apply IH, Hp, Hq]. apply all_evs in Wx as (y & Ho & ->). apply all_known, Ho.
Qed.
Lemma all_tame : tame W' K'.
Proof.
  assert (Ow : forall i, owner W' i -> owner W i). { intros i (d & Hd & E). exists d. split; [apply all_from, Hd|exact E]. }
  assert (M : forall x, W' x -> W x). { intros x Wx. apply all_evs in Wx as (o & Ho & ->). apply all_known, Ho. }
  split.
  - intros x y s Wx Wy Ex Ey. apply (tm_digests _ _ T x y s); eauto.
  - intros i x y [A A'] [B B']. apply (tm_grants _ _ T i); (split; [apply all_from|]; assumption).
  - intros d r A B. apply (tm_after _ _ T); [apply all_from, A|exact B].
  - intros d r A B. apply (tm_proof _ _ T); [apply all_from, A|exact B].
  - intros d p A B. destruct (tm_chain _ _ T d p (all_from _ A) B) as [?|X]; [auto|]. right. intros Y. apply X, Ow, Y.
  - intros d p A B. destruct (tm_authority _ _ T d p (all_from _ A) B) as [?|X]; [auto|]. right. intros Y. apply X, Ow, Y.
  - intros i Hi. rewrite (People i (Ow i Hi)). split; [discriminate|]. intros o Wo. apply all_evs in Wo as ([] & _ & E); discriminate.
Qed.
Lemma all_parents o p : has_op h o -> p ∈ parents o -> has_op h p.
Proof. apply (in_parents h (caught_up_intact order O doc_content W K T h C)). Qed.
Lemma all_supported : (forall o, supported W K o -> supported W' K' o) /\ (forall i, reachable W K i -> known_agent h i = true -> reachable W' K' i).
Proof.
  pose proof (complete order doc_content W K T h C) as [Cs Cr].
  assert (B : forall i, known_agent h i = true -> K' i \/ exists d, supported W K (MD d) /\ d_subject d = i).
  { intros i Ki. destruct (proj1 (known_agent_spec doc_content h i) Ki) as [->|[[g G]|[[g G]|X]]]; [left; exact Me| | |left; apply Us, X];
      (destruct (group_ops order O doc_content W K T h i g I) as (ops' & _ & _ & _ & _ & d & Hd & Ed); [unfold has_group; auto|]; right; exists d; split; [eapply (iv_sup _ _ _ _ _ I), Hd|exact Ed]). }
  apply supported_reachable.
  - intros x p rs Wx Ok Ep Er Hp IHp Hr IHr Ra IHa G. assert (Ho : has_op h (MD (dlg_of x p rs))) by (apply Cs, sup_dlg; assumption).
    apply sup_dlg; [|exact Ok|exact Ep|exact Er|exact IHp|exact IHr| |exact G].
    + apply all_evs. exists (MD (dlg_of x p rs)). split; [exact Ho|]. cbn [static_of dlg_of d_sig d_issuer d_delegate d_can d_proof d_after d_content]. rewrite Ep, Er, <- Ok. destruct x; reflexivity.
    + apply IHa, Cr, Ra.
  - intros x t p Wx Ok Et Ep Ht IHt Hp IHp G. assert (Ho : has_op h (MR (rev_of x t p))) by (apply Cs, sup_rev; assumption).
    apply sup_rev; [|exact Ok|exact Et|exact Ep|exact IHt|exact IHp|exact G].
    apply all_evs. exists (MR (rev_of x t p)). split; [exact Ho|]. cbn [static_of rev_of r_sig r_issuer r_revoke r_proof r_content]. rewrite Et, Ep, <- Ok. destruct x; reflexivity.
  - intros i Ki Kh. destruct (B i Kh) as [Q|(d & Hd & <-)]; [apply reach_known, Q|]. exfalso. destruct (tm_people _ _ T (d_subject d)) as [N _]; [exists d; split; [eapply sup_from, Hd|reflexivity]|]. exact (N Ki).
  - intros o Wo Kh. destruct (B _ Kh) as [Q|(d & Hd & E)]; [apply reach_known, Q|]. exfalso. destruct (tm_people _ _ T (d_subject d)) as [_ N]; [exists d; split; [eapply sup_from, Hd|reflexivity]|]. exact (N o Wo (eq_sym E)).
  - intros d Hd IH Kh. apply reach_group, IH.
Qed.
Lemma takeover_lemma : exists r, ingest_all order' doc_content cop_doc cop_ok cg_receive shuffle r0 [evs] = Some r /\
  (forall o, has_op r o <-> has_op h o) /\ (forall x, is_membership x -> x ∉ h_pending r) /\
  (forall i g, has_group h i g -> exists g', has_group r i g' /\ (revoked_once (has_op h) -> gr_members g = gr_members g' /\ gr_active g = gr_active g')) /\
  (forall i g', has_group r i g' -> exists g, has_group h i g).
Proof.
  destruct (run_client order' O' doc_content cop_doc cop_ok cg_receive shuffle Sh r0 [evs] Bl all_tame) as (r & E & Cr). exists r. split; [exact E|].
  pose proof (cu_inv _ _ _ _ _ _ Cr) as Ir. pose proof (from_genuine W (tm_digests _ _ T)) as U.
  assert (Ops : forall o, has_op r o <-> has_op h o).
  { intros o. rewrite (exact_ops order' doc_content W' K' all_tame r Cr). split; [|intros Ho; apply all_supported, (iv_sup _ _ _ _ _ I), Ho].
    intros S. apply sup_from in S. pose proof (all_from o S) as Fw.
    assert (X : exists o', has_op h o' /\ op_sig o = op_sig o').
    { destruct S as [x p rs Wx _ _ _ _|x t p Wx _ _ _ _]; apply all_evs in Wx as (o' & Ho' & E'); exists o'; (split; [exact Ho'|]); destruct o'; cbn in E'; try discriminate; injection E' as ->; reflexivity. }
    destruct X as (o' & Ho' & Es). rewrite (U o o' Fw); [exact Ho'| |exact Es]. eapply sup_from, (iv_sup _ _ _ _ _ I), Ho'. }
  split; [exact Ops|]. split; [|split].
  - intros x M Hx. apply (exact_pending order' doc_content W' K' all_tame r x Cr M) in Hx as [Wx N]. apply all_evs in Wx as (o & Ho & ->).
    apply (N o); [apply (exact_ops order' doc_content W' K' all_tame r Cr), Ops, Ho|destruct o; reflexivity].
  - intros i g G. destruct (group_ops order O doc_content W K T h i g I G) as (os & H & _ & _ & Hos & d & Hd & Ed).
    destruct (iv_subject _ _ _ _ _ Ir (MD d)) as (g' & G'); [apply Ops, Hd|]. cbn in G'. rewrite Ed in G'. exists g'. split; [exact G'|]. intros R.
    destruct (group_ops order' O' doc_content W' K' all_tame r i g' Ir G') as (os' & H' & _ & _ & Hos' & _).
    assert (S : sound os). { apply (from_sound W K T os i). intros o Ho. apply Hos in Ho as [Ho Eo]. split; [eapply sup_from, (iv_sup _ _ _ _ _ I), Ho|exact Eo]. }
    apply (converge_lemma order order' os os' g g' O O' H H'); [|apply S|apply S|].
    + intros o. rewrite Hos, Hos', Ops. reflexivity.
    + intros x y A1 A2. apply R; [apply Hos in A1 as [A1 _]; exact A1|apply Hos in A2 as [A2 _]; exact A2].
  - intros i g' G'. destruct (group_ops order' O' doc_content W' K' all_tame r i g' Ir G') as (os & _ & _ & _ & _ & d & Hd & Ed). apply Ops in Hd. destruct (iv_subject _ _ _ _ _ I (MD d) Hd) as (g & G). cbn in G. rewrite Ed in G. eauto.
Qed.
End takeover.
