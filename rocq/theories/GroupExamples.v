(** Concrete groups: examples for the theorems in [GroupProps] and counterexamples. *)
From Coq Require Import Arith Lia.
From stdpp Require Import base list gmap relations sorting.
From Verif Require Import AccessModel GroupModel CgkaSpec GroupSpec GroupProofs GroupReplay GroupMembers GroupHistory GroupTransitive GroupPropsProofs.

(** ** Two orders of iteration *)
Definition asc (s : gset nat) : list nat := merge_sort (≤) (elements s).
Definition desc (s : gset nat) : list nat := reverse (asc s).
Lemma asc_some : some_order asc.
Proof. intros s. unfold asc. apply merge_sort_Permutation. Qed.
Lemma desc_some : some_order desc.
Proof. intros s. unfold desc. rewrite reverse_Permutation. apply asc_some. Qed.

(** ** Running a list of operations *)
Definition receive order (e : env) (g : group) (o : mop) : gres group :=
  match o with MD d => receive_delegation order e g d | MR r => receive_revocation order e g r end.
Fixpoint run order (e : env) (l : list mop) (g : group) : option group :=
  match l with
  | [] => Some g
  | o :: l => match receive order e g o with GOk g => run order e l g | GErr _ => None end
  end.
Fixpoint grounded (base l : list mop) : Prop :=
  match l with [] => True | o :: l => Forall (fun p => p ∈ base) (parents o) /\ grounded (o :: base) l end.
Lemma run_history order e l : forall base g g', history order base g -> grounded base l -> run order e l g = Some g' -> history order (reverse l ++ base) g'.
Proof.
  induction l as [|o l IH]; intros base g g' H G E; cbn [run] in E; [injection E as <-; exact H|]. destruct G as [G1 G2].
  destruct (receive order e g o) as [g1|] eqn:R; [|discriminate]. rewrite reverse_cons, <- app_assoc. apply (IH (o :: base) g1); [|exact G2|exact E].
  destruct o as [d|r]; [eapply h_delegation|eapply h_revocation]; eauto; apply Forall_forall; exact G1.
Qed.
Ltac in_list := repeat first [apply elem_of_list_here | apply elem_of_list_further].
Ltac ground := cbn; repeat split; repeat first [apply Forall_nil_2 | apply Forall_cons_2]; in_list.
Definition start order (d : dlg) : group := default (Group 0 ∅ ∅ ∅ ∅) (new_group order d).
Lemma start_history order d : d_proof d = None -> d_after d = [] -> new_group order d = Some (start order d) -> history order [MD d] (start order d).
Proof. apply h_new. Qed.
Definition run_all order (e : env) (d : dlg) (l : list mop) : group := default (Group 0 ∅ ∅ ∅ ∅) (run order e l (start order d)).
Definition fine order (e : env) (d : dlg) (l : list mop) : bool :=
  match new_group order d with Some g => match run order e l g with Some _ => true | None => false end | None => false end.
Lemma run_all_history order e d l : d_proof d = None -> d_after d = [] -> grounded [MD d] l -> fine order e d l = true ->
  history order (reverse l ++ [MD d]) (run_all order e d l).
Proof.
  intros A B G F. unfold fine in F. unfold run_all, start. destruct (new_group order d) as [g|] eqn:E; [|discriminate]. cbn [default from_option].
  change (id g) with g. destruct (run order e l g) as [g'|] eqn:R; [|discriminate]. apply (run_history order e l [MD d] g); [apply h_new; assumption|exact G|exact R].
Qed.

(** ** Deciding the conditions on sets of operations *)
Lemma NoDup_key {A K} (f : A -> K) (l : list A) a b : NoDup (map f l) -> a ∈ l -> b ∈ l -> f a = f b -> a = b.
Proof.
  intros N Ha Hb E. apply elem_of_list_lookup in Ha as (i & Ha). apply elem_of_list_lookup in Hb as (j & Hb).
  assert (i = j) as <-; [|congruence]. apply (NoDup_lookup (f <$> l) i j (f a) N); rewrite list_lookup_fmap; [rewrite Ha|rewrite Hb, E]; reflexivity.
Qed.
Definition delegations (l : list mop) : list dlg := omap (fun o => match o with MD d => Some d | MR _ => None end) l.
Definition revocations (l : list mop) : list rev := omap (fun o => match o with MR r => Some r | MD _ => None end) l.
Lemma delegations_in l d : MD d ∈ l <-> d ∈ delegations l.
Proof. unfold delegations. rewrite elem_of_list_omap. split; [intros H; exists (MD d); auto|intros ([x|x] & H & [= ->]); exact H]. Qed.
Lemma revocations_in l r : MR r ∈ l <-> r ∈ revocations l.
Proof. unfold revocations. rewrite elem_of_list_omap. split; [intros H; exists (MR r); auto|intros ([x|x] & H & [= ->]); exact H]. Qed.
Definition grant_key (d : dlg) : nat * nat * option nat * nat := (d_delegate d, rank (d_can d), d_sig <$> d_proof d, d_content d).
(** [arr]: the signatures in some order. *)
Definition place (arr : list sig) (s : sig) : nat := match list_find (fun x => x = s) arr with Some (i, _) => i | None => 0 end.
Definition check_order (arr : list sig) (l : list mop) : bool :=
  forallb (fun o => forallb (fun p => place arr (op_sig p) <? place arr (op_sig o)) (parents o)) l &&
  forallb (fun d => match d_proof d with
                    | Some p => forallb (fun r => negb (d_sig (r_revoke r) =? d_sig p) || (place arr (r_sig r) <? place arr (d_sig d))) (revocations l)
                    | None => true
                    end) (delegations l).
Lemma check_genuine l : NoDup (map op_sig l) -> genuine (fun o => o ∈ l).
Proof. intros N a b A B. apply (NoDup_key op_sig l); assumption. Qed.
Lemma check_distinct l : NoDup (map grant_key (delegations l)) -> distinct_grants (fun o => o ∈ l).
Proof.
  intros N a b A B E1 E2 E3 E4 E5. apply delegations_in in A. apply delegations_in in B. apply (NoDup_key grant_key (delegations l)); auto.
  unfold grant_key. rewrite E1, E2, E3, E5. reflexivity.
Qed.
Lemma check_once l : NoDup (map (fun r => d_sig (r_revoke r)) (revocations l)) -> revoked_once (fun o => o ∈ l).
Proof. intros N a b A B E. apply revocations_in in A. apply revocations_in in B. apply (NoDup_key (fun r => d_sig (r_revoke r)) (revocations l)); auto. Qed.
Lemma check_orderable arr l : check_order arr l = true -> orderable (fun o => o ∈ l).
Proof.
  intros H. apply andb_prop in H as [H1 H2]. rewrite forallb_forall in H1, H2. exists (fun o => place arr (op_sig o)). split.
  - intros o p Ho D. apply elem_of_list_In in Ho. specialize (H1 o Ho). rewrite forallb_forall in H1. apply Nat.ltb_lt, H1, elem_of_list_In, D.
  - intros d p r Hd Hr E S. apply delegations_in, elem_of_list_In in Hd. apply revocations_in, elem_of_list_In in Hr. specialize (H2 d Hd). rewrite E in H2.
    rewrite forallb_forall in H2. specialize (H2 r Hr). rewrite S, Nat.eqb_refl in H2. apply Nat.ltb_lt, H2.
Qed.
Ltac decided := match goal with |- ?P => apply (bool_decide_unpack P); vm_compute; exact I end.
Ltac ops_sound := split; [apply check_genuine; decided|apply check_distinct; decided].
(** What is shown of a group: every member with the signatures of the delegations. *)
Definition shown (m : gmap ident (list dlg)) : list (ident * list sig) := map (fun x => (x.1, map d_sig x.2)) (map_to_list m).

(** ** A group with a revoked member: group 100, alice 1, bob 2, carol 3, dan 4. *)
Definition x_alice := Dlg 10 100 1 Admin None [] 0.
Definition x_bob := Dlg 11 1 2 Edit (Some x_alice) [] 0.
Definition x_carol := Dlg 12 1 3 Admin (Some x_alice) [] 0.
Definition x_dan := Dlg 13 3 4 Read (Some x_carol) [] 0.
Definition x_no_bob := Rev 20 1 x_bob (Some x_bob) 0.
Definition x_eve := Dlg 14 4 5 Read (Some x_dan) [x_no_bob] 0.
Definition x_ops : list mop := [MD x_bob; MD x_carol; MD x_dan; MR x_no_bob; MD x_eve].
Definition x_group order : group := run_all order ∅ x_alice x_ops.
Lemma x_history order : order = asc \/ order = desc -> history order (reverse x_ops ++ [MD x_alice]) (x_group order).
Proof. intros [->| ->]; apply run_all_history; [reflexivity|reflexivity|ground|vm_compute; reflexivity|reflexivity|reflexivity|ground|vm_compute; reflexivity]. Qed.
Lemma x_sound : sound (reverse x_ops ++ [MD x_alice]).
Proof. ops_sound. Qed.
Lemma x_orderable : orderable (fun o => o ∈ reverse x_ops ++ [MD x_alice]).
Proof. apply (check_orderable [10; 11; 12; 13; 20; 14]). vm_compute. reflexivity. Qed.
Lemma x_once : revoked_once (fun o => o ∈ reverse x_ops ++ [MD x_alice]).
Proof. apply check_once. decided. Qed.
Lemma x_shown : shown (gr_members (x_group asc)) = [(1, [10]); (3, [12]); (5, [14]); (4, [13])] /\ shown (gr_members (x_group desc)) = shown (gr_members (x_group asc)).
Proof. vm_compute. auto. Qed.

(** ** What rests on a removed delegation stays: the group's key removes bob, whom it had added. *)
Definition s_bob := Dlg 11 100 2 Edit None [] 0.
Definition s_carol := Dlg 12 2 3 Read (Some s_bob) [] 0.
Definition s_no_bob := Rev 20 100 s_bob None 0.
Definition s_ops : list mop := [MD s_bob; MD s_carol; MR s_no_bob].
Definition s_group : group := run_all asc ∅ x_alice s_ops.
Lemma survivor_lemma : exists order ops g r d,
  some_order order /\ history order ops g /\ sound ops /\ orderable (fun o => o ∈ ops) /\ revoked_once (fun o => o ∈ ops) /\
  MD d ∈ ops /\ gr_active g !! r_sig r = Some r /\ rests_on d (r_revoke r) /\
  (forall d', MD d' ∈ ops -> d_delegate d' = d_delegate d -> d' = d) /\
  (forall d', holds g d' -> d_delegate d' <> d_issuer d) /\ holds g d.
Proof.
  exists asc, (reverse s_ops ++ [MD x_alice]), s_group, s_no_bob, s_carol. split; [apply asc_some|].
  assert (H : history asc (reverse s_ops ++ [MD x_alice]) s_group) by (apply run_all_history; [reflexivity|reflexivity|ground|vm_compute; reflexivity]).
  assert (S : sound (reverse s_ops ++ [MD x_alice])) by ops_sound.
  split; [exact H|]. split; [exact S|]. split; [apply (check_orderable [10; 11; 20; 12]); vm_compute; reflexivity|]. split; [apply check_once; decided|].
  split; [in_list|]. split; [vm_compute; reflexivity|]. split; [reflexivity|]. split.
  - intros d' Hd. cbn in Hd. repeat (apply elem_of_cons in Hd as [Hd|Hd]; [try discriminate; injection Hd as ->; cbn; auto; discriminate|]). inversion Hd.
  - split.
    + intros d' (l & L & _) Q. rewrite Q in L. vm_compute in L. discriminate.
    + exists [s_carol]. split; [vm_compute; reflexivity|left].
Qed.

(** ** Anyone may revoke: 66 is no member and never signed anything before. *)
Definition o_rev := Rev 20 66 x_alice (Some x_alice) 0.
Lemma outsider_lemma : exists order ops g r g',
  some_order order /\ history order ops g /\ sound ops /\ (forall p, p ∈ parents (MR r) -> p ∈ ops) /\
  (forall d, MD d ∈ ops -> d_delegate d <> r_issuer r /\ d_issuer d <> r_issuer r) /\
  receive_revocation order ∅ g r = GOk g' /\ gr_members g <> ∅ /\ gr_members g' = ∅.
Proof.
  exists asc, [MD x_alice], (start asc x_alice), o_rev, (run_all asc ∅ x_alice [MR o_rev]). split; [apply asc_some|].
  split; [apply start_history; [reflexivity|reflexivity|vm_compute; reflexivity]|]. split; [ops_sound|].
  split; [intros p Hp; cbn in Hp; repeat (apply elem_of_cons in Hp as [->|Hp]; [in_list|]); inversion Hp|].
  split; [intros d Hd; apply elem_of_list_singleton in Hd; injection Hd as ->; cbn; split; discriminate|].
  split; [vm_compute; reflexivity|]. split; [|apply map_to_list_inj; vm_compute; reflexivity].
  intros Z. apply (f_equal (fun m => m !! 1)) in Z. vm_compute in Z. discriminate.
Qed.

(** ** An admin cannot remove a member they did not add. *)
Definition a_bob := Dlg 11 100 2 Admin None [] 0.
Definition a_group := run_all asc ∅ x_alice [MD a_bob].
Lemma admin_lemma : exists order ops g mine theirs,
  some_order order /\ history order ops g /\ sound ops /\ holds g mine /\ d_can mine = Admin /\ holds g theirs /\ d_delegate mine <> d_delegate theirs /\
  (forall retain content sigs, revoke_member order ∅ g (d_delegate theirs) retain (d_delegate mine) content sigs = GErr ENoProof) /\
  (forall s content, receive_revocation order ∅ g (Rev s (d_delegate mine) theirs (Some mine) content) = GErr EInvalidProofChain).
Proof.
  exists asc, (reverse [MD a_bob] ++ [MD x_alice]), a_group, a_bob, x_alice. split; [apply asc_some|].
  split; [apply run_all_history; [reflexivity|reflexivity|ground|vm_compute; reflexivity]|]. split; [ops_sound|].
  split; [exists [a_bob]; split; [vm_compute; reflexivity|left]|]. split; [reflexivity|].
  split; [exists [x_alice]; split; [vm_compute; reflexivity|left]|]. split; [cbn; discriminate|]. split.
  - intros retain content sigs. vm_compute. reflexivity.
  - intros s content. vm_compute. reflexivity.
Qed.

(** ** A removal on the authority of a group that was added by the removed member: nobody is left. *)
Definition c_team := Dlg 11 1 200 Admin (Some x_alice) [] 0.
Definition c_env : env := {[ 200 := {[ 7 := [Dlg 30 200 7 Admin None [] 0] ]} ]}.
Definition c_no_alice := Rev 20 7 x_alice (Some c_team) 0.
Definition c_ops : list mop := [MD c_team; MR c_no_alice].
Definition c_group := run_all asc c_env x_alice c_ops.
Lemma cycle_lemma : exists order ops g r,
  some_order order /\ history order ops g /\ sound ops /\ revoked_once (fun o => o ∈ ops) /\ MR r ∈ ops /\
  ~ orderable (fun o => o ∈ ops) /\ replay_order order g [] /\ gr_members g = ∅ /\ gr_active g = ∅.
Proof.
  exists asc, (reverse c_ops ++ [MD x_alice]), c_group, c_no_alice. split; [apply asc_some|].
  split; [apply run_all_history; [reflexivity|reflexivity|ground|vm_compute; reflexivity]|]. split; [ops_sound|]. split; [apply check_once; decided|].
  split; [in_list|]. split.
  - intros (f & F1 & F2). assert (A : f (MD c_team) < f (MR c_no_alice)).
    { apply F1; [in_list|]. right. left. }
    assert (B : f (MR c_no_alice) < f (MD c_team)) by (apply (F2 c_team x_alice c_no_alice); [in_list|in_list|reflexivity|reflexivity]). lia.
  - split; [|split; apply map_to_list_inj; vm_compute; reflexivity]. 
    destruct (reverse_topsort asc (gr_dheads c_group) (gr_rheads c_group)) as [[l all]|] eqn:E.
    + exists l, all. split; [exact E|]. assert (L : l = []) by (apply (f_equal (fun x => match x with Some (l, _) => Some l | None => None end)) in E; vm_compute in E; congruence).
      subst l. reflexivity.
    + exfalso. apply (f_equal (fun x => match x with Some (l, _) => Some l | None => None end)) in E. vm_compute in E. discriminate.
Qed.

(** ** Two revocations of one delegation: the members depend on the order of iteration. *)
Definition t_alice := Dlg 1 100 1 Admin None [] 0.
Definition t_big := Dlg 2 100 2 Admin None [] 0.
Definition t_small := Dlg 3 100 2 Read None [] 0.
Definition t_b := Dlg 4 1 3 Edit (Some t_alice) [] 0.
Definition t_team := Dlg 5 2 200 Admin (Some t_big) [] 0.
Definition t_x := Dlg 9 2 9 Read (Some t_small) [] 0.
Definition t_no_big := Rev 10 2 t_big (Some t_big) 0.
Definition t_no_team := Rev 12 2 t_team (Some t_team) 0.
Definition t_no_x := Rev 20 2 t_x (Some t_x) 0.
Definition t_no_b := Rev 11 1 t_b (Some t_b) 0.
Definition t_c := Dlg 6 3 4 Edit (Some t_b) [t_no_big; t_no_team; t_no_x] 0.
Definition t_d := Dlg 7 4 5 Read (Some t_c) [] 0.
Definition t_e := Dlg 8 5 7 Read (Some t_d) [] 0.
Definition t_r1 := Rev 13 6 t_c (Some t_team) 0.
Definition t_r2 := Rev 14 3 t_c (Some t_c) 0.
Definition t_env : env := {[ 200 := {[ 6 := [Dlg 30 200 6 Admin None [] 0] ]} ]}.
Definition t_ops : list mop :=
  [MD t_big; MD t_small; MD t_b; MD t_team; MD t_x; MR t_no_big; MR t_no_team; MR t_no_x; MD t_c; MD t_d; MD t_e; MR t_no_b; MR t_r1; MR t_r2].
Definition t_group order := run_all order t_env t_alice t_ops.
Lemma twice_lemma : exists order order' ops g g' i,
  some_order order /\ some_order order' /\ history order ops g /\ history order' ops g' /\ sound ops /\ orderable (fun o => o ∈ ops) /\
  is_Some (gr_members g !! i) /\ gr_members g' !! i = None.
Proof.
  exists asc, desc, (reverse t_ops ++ [MD t_alice]), (t_group asc), (t_group desc), 5. split; [apply asc_some|]. split; [apply desc_some|].
  split; [apply run_all_history; [reflexivity|reflexivity|ground|vm_compute; reflexivity]|].
  split; [apply run_all_history; [reflexivity|reflexivity|ground|vm_compute; reflexivity]|]. split; [ops_sound|].
  split; [apply (check_orderable [2; 10; 5; 3; 12; 9; 1; 20; 4; 11; 6; 13; 14; 7; 8]); vm_compute; reflexivity|]. split; [|vm_compute; reflexivity]. vm_compute. eexists. reflexivity.
Qed.

(** ** Two members of a team make the same grant: the members depend on the order of arrival. *)
Definition q_team := Dlg 11 100 200 Admin None [] 0.
Definition q_other := Dlg 12 100 9 Read None [] 0.
Definition q_one := Dlg 13 1 3 Edit (Some q_team) [] 0.
Definition q_two := Dlg 14 2 3 Edit (Some q_team) [] 0.
Definition q_next := Dlg 15 3 4 Read (Some q_one) [] 0.
Definition q_rev := Rev 20 100 q_one None 0.
Definition q_env : env := {[ 200 := {[ 1 := [Dlg 30 200 1 Admin None [] 0]; 2 := [Dlg 31 200 2 Admin None [] 0] ]} ]}.
Definition q_ops : list mop := [MD q_other; MD q_one; MD q_two; MD q_next; MR q_rev].
Definition q_ops' : list mop := [MD q_other; MD q_one; MD q_next; MD q_two; MR q_rev].
Lemma same_grant_lemma : exists order ops ops' g g' i,
  some_order order /\ history order ops g /\ history order ops' g' /\ (forall o, o ∈ ops <-> o ∈ ops') /\ genuine (fun o => o ∈ ops) /\
  orderable (fun o => o ∈ ops) /\ revoked_once (fun o => o ∈ ops) /\ is_Some (gr_members g !! i) /\ gr_members g' !! i = None.
Proof.
  exists asc, (reverse q_ops' ++ [MD q_team]), (reverse q_ops ++ [MD q_team]), (run_all asc q_env q_team q_ops'), (run_all asc q_env q_team q_ops), 3.
  split; [apply asc_some|]. split; [apply run_all_history; [reflexivity|reflexivity|ground|vm_compute; reflexivity]|].
  split; [apply run_all_history; [reflexivity|reflexivity|ground|vm_compute; reflexivity]|].
  split; [intros o; cbn; rewrite !elem_of_cons; tauto|]. split; [apply check_genuine; decided|]. split; [apply (check_orderable [11; 12; 13; 14; 20; 15]); vm_compute; reflexivity|].
  split; [apply check_once; decided|]. split; [|vm_compute; reflexivity]. vm_compute. eexists. reflexivity.
Qed.

(** ** Groups inside groups *)
Definition one (x : ident) (a : access) (s g : nat) : gmap ident (list dlg) := {[ x := [Dlg s g x a None [] 0] ]}.
(** 200 contains 300 with read access, 300 contains 400 as admin, 400 contains 5 as admin. *)
Definition n_env : env := {[ 100 := one 200 Admin 30 100; 200 := one 300 Read 31 200; 300 := one 400 Admin 32 300; 400 := one 5 Admin 33 400 ]}.
Lemma n_grants g a i : grants n_env g i a -> g = 100 \/ g = 200 -> (g = 100 -> i <> 200) -> rank a <= rank Read.
Proof.
  assert (B : forall g i a, grants n_env g i a -> (g = 200 -> rank a <= rank Read) /\ (g = 100 -> i <> 200 -> rank a <= rank Read)).
  { intros g0 i0 a0 G. induction G as [g0 mems i0 l d E M H|g0 m i0 a0 b G1 IH1 G2 IH2].
    - split.
      + intros ->. unfold n_env in E. rewrite lookup_insert_ne, lookup_insert in E by discriminate. injection E as <-. unfold one in M. apply lookup_singleton_Some in M as [_ <-]. apply elem_of_list_singleton in H as ->. cbn. lia.
      + intros -> N. unfold n_env in E. rewrite lookup_insert in E. injection E as <-. unfold one in M. apply lookup_singleton_Some in M as [M _]. congruence.
    - assert (W : forall x y, rank (amin x y) <= rank x /\ rank (amin x y) <= rank y).
      { intros x y. unfold amin, ale. destruct (Nat.leb_spec (rank x) (rank y)); lia. }
      destruct (W a0 b). split.
      + intros ->. destruct IH1 as [IH1 _]. specialize (IH1 eq_refl). lia.
      + intros -> N. destruct (decide (m = 200)) as [->|N'].
        * destruct IH2 as [IH2 _]. specialize (IH2 eq_refl). lia.
        * destruct IH1 as [_ IH1]. specialize (IH1 eq_refl N'). lia. }
  intros G [->| ->] N; destruct (B _ _ _ G); auto.
Qed.
Ltac map_cases E := repeat (apply lookup_insert_Some in E as [[<- E]|[? E]]); [..|apply lookup_singleton_Some in E as [<- E]].
Lemma n_sane : sane n_env.
Proof.
  assert (F : forall g mems i l, n_env !! g = Some mems -> mems !! i = Some l ->
    exists d, l = [d] /\ d_delegate d = i /\ (d = Dlg 30 100 200 Admin None [] 0 \/ d = Dlg 31 200 300 Read None [] 0 \/ d = Dlg 32 300 400 Admin None [] 0 \/ d = Dlg 33 400 5 Admin None [] 0)).
  { intros g mems i l E M. unfold n_env in E. map_cases E; subst mems; unfold one in M; apply lookup_singleton_Some in M as [<- <-]; eexists; (split; [reflexivity|]); auto 10. }
  split.
  - intros g mems i l E M. destruct (F _ _ _ _ E M) as (d & -> & D & _). split; [discriminate|]. intros x Hx. apply elem_of_list_singleton in Hx as ->. exact D.
  - intros g mems i l d g' mems' i' l' d' E M H E' M' H' Q. destruct (F _ _ _ _ E M) as (x & -> & _ & D). destruct (F _ _ _ _ E' M') as (x' & -> & _ & D').
    apply elem_of_list_singleton in H as ->. apply elem_of_list_singleton in H' as ->. destruct D as [->|[->|[->| ->]]], D' as [->|[->|[->| ->]]]; cbn in Q; congruence.
Qed.
Lemma nested_lemma : exists order e g i caps,
  some_order order /\ sane e /\ belongs e g i /\ (forall a, grants e g i a -> rank a <= rank Read) /\
  (exists mems, e !! g = Some mems /\ transitive_members order e g mems = Some caps) /\ caps !! i = Some Admin.
Proof.
  exists asc, n_env, 200, 5, (default ∅ (transitive_members asc n_env 200 (one 300 Read 31 200))). split; [apply asc_some|]. split; [apply n_sane|].
  split.
  { apply tc_l with 300; [|apply tc_l with 400; [|apply tc_once]].
    - exists (one 300 Read 31 200). split; [reflexivity|eexists; apply lookup_singleton].
    - exists (one 400 Admin 32 300). split; [reflexivity|eexists; apply lookup_singleton].
    - exists (one 5 Admin 33 400). split; [reflexivity|eexists; apply lookup_singleton]. }
  split; [intros a G; apply (n_grants _ _ _ G); [auto|discriminate]|]. split; [|vm_compute; reflexivity].
  exists (one 300 Read 31 200). split; [vm_compute; reflexivity|].
  destruct (transitive_members asc n_env 200 (one 300 Read 31 200)) eqn:E; [reflexivity|].
  destruct (transitive_members_spec asc n_env 200 (one 300 Read 31 200) asc_some n_sane ltac:(vm_compute; reflexivity)) as (c & Q & _). congruence.
Qed.
(** 5 has at most read access in group 100 and yet adds an admin. *)
Definition n_first := Dlg 30 100 200 Admin None [] 0.
Lemma escalation_lemma : exists order ops g e signer g' d,
  some_order order /\ sane e /\ history order ops g /\ sound ops /\ e !! gr_id g = Some (gr_members g) /\
  (forall a, grants e (gr_id g) signer a -> rank a <= rank Read) /\
  add_member order e g 66 Admin signer 0 40 = GOk (g', d) /\ holds g' d /\ d_delegate d = 66 /\ d_can d = Admin.
Proof.
  set (g := start asc n_first). set (x := add_member asc n_env g 66 Admin 5 0 40).
  exists asc, [MD n_first], g, n_env, 5, (match x with GOk y => y.1 | GErr _ => g end), (match x with GOk y => y.2 | GErr _ => n_first end).
  split; [apply asc_some|]. split; [apply n_sane|]. split; [apply start_history; [reflexivity|reflexivity|vm_compute; reflexivity]|]. split; [ops_sound|].
  split; [vm_compute; reflexivity|]. split; [intros a G; apply (n_grants _ _ _ G); [left; reflexivity|discriminate]|].
  assert (X : match x with GOk _ => true | GErr _ => false end = true) by (vm_compute; reflexivity).
  split.
  { change (x = GOk (match x with GOk y => y.1 | GErr _ => g end, match x with GOk y => y.2 | GErr _ => n_first end)).
    clearbody x. destruct x as [[? ?]|]; [reflexivity|discriminate]. }
  split; [|split; vm_compute; reflexivity].
  exists [match x with GOk y => y.2 | GErr _ => n_first end]. split; [vm_compute; reflexivity|left].
Qed.
(** 5 is in 200 as admin and in 300 with read access, both of which are in 100: what is reported depends on the order. *)
Definition k_env : env := {[ 100 := {[ 200 := [Dlg 30 100 200 Admin None [] 0]; 300 := [Dlg 31 100 300 Admin None [] 0] ]};
                            200 := one 5 Admin 32 200; 300 := one 5 Read 33 300 ]}.
Lemma unstable_lemma : exists order order' e g mems i caps caps',
  some_order order /\ some_order order' /\ e !! g = Some mems /\ grants e g i Admin /\
  transitive_members order e g mems = Some caps /\ transitive_members order' e g mems = Some caps' /\ caps !! i = Some Admin /\ caps' !! i = Some Read.
Proof.
  set (mems := default ∅ (k_env !! 100)).
  assert (D : exists caps caps', transitive_members asc k_env 100 mems = Some caps /\ transitive_members desc k_env 100 mems = Some caps' /\ caps !! 5 = Some Admin /\ caps' !! 5 = Some Read).
  { assert (D1 : match transitive_members asc k_env 100 mems with Some c => c !! 5 | None => None end = Some Admin) by (vm_compute; reflexivity).
    assert (D2 : match transitive_members desc k_env 100 mems with Some c => c !! 5 | None => None end = Some Read) by (vm_compute; reflexivity).
    destruct (transitive_members asc k_env 100 mems) as [c|]; [|discriminate]. destruct (transitive_members desc k_env 100 mems) as [c'|]; [|discriminate].
    exists c, c'. auto. }
  destruct D as (caps & caps' & D). exists asc, desc, k_env, 100, mems, 5, caps, caps'. split; [apply asc_some|]. split; [apply desc_some|].
  split; [reflexivity|]. split; [|exact D].
  change Admin with (amin Admin Admin). apply (grants_through _ _ 200).
  - change Admin with (d_can (Dlg 30 100 200 Admin None [] 0)). eapply (grants_direct _ 100 mems); [reflexivity|reflexivity|left].
  - change Admin with (d_can (Dlg 32 200 5 Admin None [] 0)). eapply (grants_direct _ 200 (one 5 Admin 32 200)); [reflexivity|reflexivity|left].
Qed.
