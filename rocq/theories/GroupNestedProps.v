(** Access through groups in groups.  Property C44.

    [grants e g i a]: [i] is given the access [a] in [g] along some chain of memberships, which is
    that of its weakest link.  [transitive_members order e g mems]: what the code reports. *)
From Coq Require Import Arith Lia.
From stdpp Require Import base list gmap relations.
From Verif Require Import ResModel KeysModel TreeModel TreeSpec TreeOps TreeRun SecrecySpec OpsModel CgkaModel.
From Verif Require Import AccessModel GroupModel CgkaSpec GroupSpec GroupProofs GroupHistory GroupTransitive GroupPropsProofs GroupExamples PrekeyModel HiveModel HiveSpec SyncModel.
From Verif Require Import DocModel DocSpec DocKeys DocProofs DocEffects DocPropsProofs DocExamples GroupNestedSpec GroupNested.

(** ** What is reported *)

(** In a group that contains groups, but none that contain groups, everybody who belongs to it is
    reported with the access of one of their chains. *)
Theorem C44_two_levels_partial order e g mems : some_order order -> sane e -> by_subject e -> e !! g = Some mems -> two_levels e g ->
  exists caps, transitive_members order e g mems = Some caps /\
    forall i, i <> g -> (is_Some (caps !! i) <-> belongs e g i) /\ forall a, caps !! i = Some a -> grants e g i a.
Proof.
  intros O S B E T. destruct (transitive_members_spec order e g mems O S E) as (caps & Q & K). exists caps. split; [exact Q|].
  intros i N. split; [apply K, N|]. intros a. apply (two_levels_sound order O e S g mems E B); [|exact Q|exact N].
  intros m ms j Nm D Em Hj. apply (T m j Nm D). exists ms. auto.
Qed.
Print Assumptions C44_two_levels_partial.
(** So whoever has the same access along all chains is reported with it, in whatever order maps are
    gone through. *)
Theorem C44_one_access_partial order e g mems i a : some_order order -> sane e -> by_subject e -> e !! g = Some mems -> two_levels e g -> i <> g ->
  grants e g i a -> (forall b, grants e g i b -> b = a) -> exists caps, transitive_members order e g mems = Some caps /\ caps !! i = Some a.
Proof.
  intros O S B E T N G U. destruct (C44_two_levels_partial order e g mems O S B E T) as (caps & Q & K). exists caps. split; [exact Q|].
  destruct (K i N) as [K1 K2]. assert (Bl : belongs e g i).
  { clear -G. induction G as [g mems i l d E M H|g m i a b _ IH1 _ IH2]; [apply tc_once; exists mems; eauto|eapply tc_transitive; eauto]. }
  apply K1 in Bl as [b Hb]. rewrite (U b (K2 b Hb)) in Hb. exact Hb.
Qed.
Print Assumptions C44_one_access_partial.
(** However deep groups are nested, cycles included: nobody is reported with more than the greatest
    access, or less than the least, that is delegated anywhere in the group or below it. *)
Theorem C44_bounds_partial order e g mems lo hi : some_order order -> sane e -> e !! g = Some mems -> delegates_within e g lo hi ->
  exists caps, transitive_members order e g mems = Some caps /\ forall i a, caps !! i = Some a -> rank lo <= rank a <= rank hi.
Proof.
  intros O S E W. destruct (transitive_members_spec order e g mems O S E) as (caps & Q & _). exists caps. split; [exact Q|].
  intros i a H. assert (Wi : within (rank lo) (rank hi) a); [|exact Wi].
  eapply (bounds_lemma order O e S (rank lo) (rank hi) g mems E); [exact W|exact Q|destruct hi; cbn; lia|exact H].
Qed.
Print Assumptions C44_bounds_partial.
(** In any client whose groups and documents have histories of accepted operations. *)
Theorem C44_client_partial order P h i g : some_order order -> well_signed P -> tidy order P h -> has_group h i g -> two_levels (h_env h) i ->
  exists caps, caps_of order h g = Some caps /\
    forall a, a <> i -> (is_Some (caps !! a) <-> belongs (h_env h) i a) /\ forall c, caps !! a = Some c -> grants (h_env h) i a c.
Proof.
  intros O W T G L. unfold caps_of. rewrite (proj1 (proj1 T i g G)). apply C44_two_levels_partial; [exact O|eapply env_sane; eauto| |apply (env_group order P h T); eauto|exact L].
  intros j mems x l d E M H. apply (env_group order P h T) in E as (g0 & G0 & ->). destruct (proj1 T j g0 G0) as (Id & os & Ho & Hl).
  pose proof (history_sound order P W os g0 Ho Hl) as [U D]. rewrite <- Id. apply (cs_subject _ _ _ (hist_cons order O os g0 Ho U D)).
  eapply (member_in order O os g0); [exact Ho|split; assumption|exact M|exact H].
Qed.
Print Assumptions C44_client_partial.

(** ** What may be done *)

(** A delegation that is accepted because of a team: whoever signed a link of its chain has at least
    the delegated access in the team the link above is for, provided that team contains no groups of
    groups. *)
Theorem C44_accepted_partial order e g d g' a p : some_order order -> sane e -> by_subject e -> receive_delegation order e g d = GOk g' ->
  in_chain d a -> rests_on a p -> two_levels e (d_delegate p) ->
  d_issuer a = d_delegate p \/ exists b, grants e (d_delegate p) (d_issuer a) b /\ rank (d_can d) <= rank b.
Proof.
  intros O S B R C Rp T. destruct (accepted_delegation _ _ _ _ _ R) as (_ & _ & Ch & _). destruct (chain_link order e _ _ Ch a p C Rp) as [Z|[N Z]]; [auto|].
  right. eapply two_levels_member; eauto.
Qed.
Print Assumptions C44_accepted_partial.
(** However deep teams are nested: nothing is accepted from a team's members beyond the greatest access
    that is delegated in the team or below it. *)
Theorem C44_accepted_bounds_partial order e g d g' a p lo hi : some_order order -> sane e -> receive_delegation order e g d = GOk g' ->
  in_chain d a -> rests_on a p -> delegates_within e (d_delegate p) lo hi -> d_issuer a = d_delegate p \/ rank (d_can d) <= rank hi.
Proof.
  intros O S R C Rp W. destruct (accepted_delegation _ _ _ _ _ R) as (_ & _ & Ch & _). destruct (chain_link order e _ _ Ch a p C Rp) as [Z|[N Z]]; [auto|].
  right. eapply bounded_member; eauto.
Qed.
Print Assumptions C44_accepted_bounds_partial.
(** Nobody can add a member with more access than they have along some chain, in a group whose teams
    contain no groups of groups.  (With one more level they can: [C17_nested_groups_refuted].) *)
Theorem C44_add_member_partial order e ops g who can signer content s g' d : some_order order -> sane e -> by_subject e ->
  history order ops g -> sound ops -> e !! gr_id g = Some (gr_members g) -> (forall m, direct e (gr_id g) m -> two_levels e m) ->
  add_member order e g who can signer content s = GOk (g', d) ->
  signer = gr_id g \/ exists b, grants e (gr_id g) signer b /\ rank can <= rank b.
Proof.
  intros O S B H Sd E T Q. destruct (add_member_history order O e ops g who can signer content s g' d H Sd Q) as (_ & _ & Is & _ & Cn & Pf & _).
  destruct (d_proof d) as [p|] eqn:Dp; [|auto]. right.
  assert (R : receive_delegation order e g d = GOk g').
  { unfold add_member in Q. cbv zeta in Q. match type of Q with match ?X with _ => _ end = _ => destruct X end; [|discriminate].
    destruct (receive_delegation _ _ _ _) eqn:R; [|discriminate]. injection Q as -> <-. exact R. }
  destruct Pf as (l & L & Hp). destruct (proj1 S _ _ _ _ E L) as [_ Dl].
  assert (Gp : grants e (gr_id g) (d_delegate p) (d_can p)) by (eapply grants_direct; eauto).
  destruct (accepted_chain_lemma order e g d g' O S R) as [_ Ch]. destruct (Ch d p (rtc_refl _ _) Dp) as [Le _]. rewrite Cn in Le.
  destruct (C44_accepted_partial order e g d g' d p O S B R (rtc_refl _ _) Dp) as [Z|(b & G & Lb)].
  - apply T. exists (gr_members g). split; [exact E|eauto].
  - exists (d_can p). rewrite <- Is, Z. auto.
  - exists (amin (d_can p) b). rewrite <- Is. split; [eapply grants_through; eauto|]. rewrite amin_rank. rewrite Cn in Lb. lia.
Qed.
Print Assumptions C44_add_member_partial.

(** ** Examples *)

(** 100 contains the team 200 with edit access; 200 contains 7 as admin and the team 300 with read
    access; 300 contains 5 as admin and 8 as editor. *)
Definition j_env : gmap ident (gmap ident (list dlg)) :=
  {[ 100 := one 200 Edit 30 100;
     200 := {[ 300 := [Dlg 31 200 300 Read None [] 0]; 7 := [Dlg 32 200 7 Admin None [] 0] ]};
     300 := {[ 5 := [Dlg 33 300 5 Admin None [] 0]; 8 := [Dlg 34 300 8 Edit None [] 0] ]} ]}.
Definition j_dlgs : list (ident * dlg) :=
  [(100, Dlg 30 100 200 Edit None [] 0); (200, Dlg 31 200 300 Read None [] 0); (200, Dlg 32 200 7 Admin None [] 0); (300, Dlg 33 300 5 Admin None [] 0); (300, Dlg 34 300 8 Edit None [] 0)].
Lemma j_all g mems i l : j_env !! g = Some mems -> mems !! i = Some l -> exists d, l = [d] /\ d_delegate d = i /\ (g, d) ∈ j_dlgs.
Proof.
  intros E M. unfold j_env in E. map_cases E; subst mems; unfold one in M.
  1: apply lookup_singleton_Some in M as [<- <-]. 2-3: map_cases M; subst l.
  all: eexists; (split; [reflexivity|]); split; [reflexivity|apply elem_of_list_In; cbn; auto 10].
Qed.
Lemma j_sane : sane j_env.
Proof.
  split.
  - intros g mems i l E M. destruct (j_all g mems i l E M) as (d & -> & D & _). split; [discriminate|]. intros x Hx. apply elem_of_list_singleton in Hx as ->. exact D.
  - intros g mems i l d g' mems' i' l' d' E M H E' M' H' Q. destruct (j_all _ _ _ _ E M) as (x & -> & _ & D). destruct (j_all _ _ _ _ E' M') as (x' & -> & _ & D').
    apply elem_of_list_singleton in H as ->. apply elem_of_list_singleton in H' as ->. unfold j_dlgs in *. rewrite !elem_of_cons, elem_of_nil in D, D'.
    destruct D as [D|[D|[D|[D|[D|[]]]]]], D' as [D'|[D'|[D'|[D'|[D'|[]]]]]]; injection D as -> ->; injection D' as -> ->; cbn in Q; congruence.
Qed.
Lemma j_subject : by_subject j_env.
Proof.
  intros g mems i l d E M H. destruct (j_all _ _ _ _ E M) as (x & -> & _ & D). apply elem_of_list_singleton in H as ->. unfold j_dlgs in D. rewrite !elem_of_cons, elem_of_nil in D.
  destruct D as [D|[D|[D|[D|[D|[]]]]]]; injection D as -> ->; reflexivity.
Qed.
Lemma j_direct g i : direct j_env g i -> (g, i) ∈ [(100, 200); (200, 300); (200, 7); (300, 5); (300, 8)].
Proof.
  intros (mems & E & l & M). destruct (j_all _ _ _ _ E M) as (x & _ & <- & D). unfold j_dlgs in D. rewrite !elem_of_cons, elem_of_nil in D.
  destruct D as [D|[D|[D|[D|[D|[]]]]]]; injection D as -> ->; apply elem_of_list_In; cbn; auto 10.
Qed.
Lemma j_levels : two_levels j_env 200.
Proof.
  intros m i _ D1 D2. apply j_direct in D1, D2. rewrite !elem_of_cons, elem_of_nil in D1, D2.
  destruct D1 as [D1|[D1|[D1|[D1|[D1|[]]]]]], D2 as [D2|[D2|[D2|[D2|[D2|[]]]]]]; injection D1 as ?; injection D2 as ? ->; subst; try discriminate; right; reflexivity.
Qed.
(** 5, admin of a team that has read access, is reported with read access, and so is 8. *)
Example C44_two_levels_example : some_order asc /\ sane j_env /\ by_subject j_env /\ two_levels j_env 200 /\
  match j_env !! 200 with
  | Some mems => match transitive_members asc j_env 200 mems with Some caps => (caps !! 5, caps !! 8, caps !! 7, caps !! 300) = (Some Read, Some Read, Some Admin, Some Read) | None => False end
  | None => False
  end.
Proof. split; [exact asc_some|]. split; [exact j_sane|]. split; [exact j_subject|]. split; [exact j_levels|]. vm_compute. reflexivity. Qed.
Definition j_group := GroupExamples.start asc (Dlg 30 100 200 Edit None [] 0).
(** 5 can add a reader to 100, but no editor; 7 can add an editor. *)
Example C44_add_member_example : history asc [MD (Dlg 30 100 200 Edit None [] 0)] j_group /\ sound [MD (Dlg 30 100 200 Edit None [] 0)] /\
  j_env !! gr_id j_group = Some (gr_members j_group) /\ (forall m, direct j_env (gr_id j_group) m -> two_levels j_env m) /\
  match add_member asc j_env j_group 66 Read 5 0 40 with GOk (_, d) => d_can d = Read | _ => False end /\
  add_member asc j_env j_group 66 Edit 5 0 40 = GErr EAccessEscalation /\
  match add_member asc j_env j_group 66 Edit 7 0 40 with GOk (_, d) => d_can d = Edit | _ => False end.
Proof.
  split; [apply start_history; [reflexivity|reflexivity|vm_compute; reflexivity]|]. split; [ops_sound|]. split; [vm_compute; reflexivity|].
  split; [|split; [vm_compute; reflexivity|split; vm_compute; reflexivity]].
  intros m D. change (gr_id j_group) with 100 in D. apply j_direct in D. rewrite !elem_of_cons, elem_of_nil in D.
  destruct D as [D|[D|[D|[D|[D|[]]]]]]; try discriminate. injection D as ->. exact j_levels.
Qed.
(** All delegations in 300 are for editors or admins. *)
Example C44_bounds_example : delegates_within j_env 300 Edit Admin /\
  match j_env !! 300 with
  | Some mems => match transitive_members asc j_env 300 mems with Some caps => (caps !! 5, caps !! 8) = (Some Admin, Some Edit) | None => False end
  | None => False
  end.
Proof.
  split; [|vm_compute; reflexivity]. intros m mems i l d B E M H.
  assert (m = 300) as ->.
  { destruct B as [B|B]; [exact B|]. exfalso. assert (X : forall x y, belongs j_env x y -> x = 300 -> y = 5 \/ y = 8).
    { assert (L : forall x y, direct j_env x y -> x <> 5 /\ x <> 8 /\ (x = 300 -> y = 5 \/ y = 8)).
      { intros x y D. apply j_direct in D. rewrite !elem_of_cons, elem_of_nil in D. destruct D as [D|[D|[D|[D|[D|[]]]]]]; injection D as -> ->; repeat split; try discriminate; auto. }
      intros x y Bxy E0. destruct Bxy as [x y D|x y z D B'].
      - apply (L _ _ D), E0.
      - exfalso. destruct (proj2 (proj2 (L _ _ D)) E0) as [-> | ->]; inversion B' as [? ? D'|? ? ? D']; subst; destruct (L _ _ D') as (? & ? & _); contradiction. }
    destruct (X _ _ B eq_refl) as [-> | ->]; vm_compute in E; discriminate. }
  destruct (j_all _ _ _ _ E M) as (x & -> & _ & D). apply elem_of_list_singleton in H as ->. unfold j_dlgs in D. rewrite !elem_of_cons, elem_of_nil in D.
  destruct D as [D|[D|[D|[D|[D|[]]]]]]; try discriminate; injection D as ->; cbn; lia.
Qed.
(** A client with a document that contains a team. *)
Definition two_levelsb (e : gmap ident (gmap ident (list dlg))) (g : ident) : bool :=
  match e !! g with
  | Some mems => forallb (fun m => (m =? g) || match e !! m with
      | Some mm => forallb (fun i => (i =? g) || match e !! i with None => true | Some _ => false end) (map fst (map_to_list mm))
      | None => true end) (map fst (map_to_list mems))
  | None => true
  end.
Lemma two_levelsb_ok e g : two_levelsb e g = true -> two_levels e g.
Proof.
  intros H m i N (mems & E & l & M) (mm & Em & l' & M'). unfold two_levelsb in H. rewrite E in H.
  assert (K : forall (x : gmap ident (list dlg)) j y, x !! j = Some y -> In j (map fst (map_to_list x))).
  { intros x j y Hj. apply in_map_iff. exists (j, y). split; [reflexivity|]. apply elem_of_list_In, elem_of_map_to_list, Hj. }
  rewrite forallb_forall in H. specialize (H m (K _ _ _ M)). rewrite (proj2 (Nat.eqb_neq m g) N), Em in H. cbn [orb] in H.
  rewrite forallb_forall in H. specialize (H i (K _ _ _ M')). destruct (Nat.eqb_spec i g); [auto|]. cbn [orb] in H. right. destruct (e !! i); [discriminate|reflexivity].
Qed.
Lemma some_b {A} (o : option A) : match o with Some _ => true | None => false end = true -> is_Some o.
Proof. destruct o; [eauto|discriminate]. Qed.
Example C44_client_example : tidy asc Said m4 /\ is_Some (h_docs m4 !! 9) /\ two_levels (h_env m4) 9 /\ is_Some (h_env m4 !! 7) /\
  match h_docs m4 !! 9 with Some g => match caps_of asc m4 g with Some caps => (caps !! 3, caps !! 7) = (Some Read, Some Admin) | None => False end | None => False end.
Proof.
  split; [exact (proj1 (managed_agrees asc asc_some hord rord pk Said said_signed m4 m4_managed))|].
  split; [apply some_b; vm_compute; reflexivity|]. split; [apply two_levelsb_ok; vm_compute; reflexivity|]. split; [apply some_b; vm_compute; reflexivity|]. vm_compute. reflexivity.
Qed.
