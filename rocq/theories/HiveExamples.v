(** Concrete clients: examples for the theorems in [HiveProps] and counterexamples. *)
From Coq Require Import Arith Lia.
From stdpp Require Import base list gmap relations sorting.
From Verif Require Import AccessModel GroupModel CgkaSpec GroupSpec GroupPropsProofs GroupExamples PrekeyModel HiveModel HiveSpec HiveProofs HivePropsProofs.

(** ** Deciding the conditions on events *)
Definition find_d (L : list mop) (s : sig) : option dlg := snd <$> list_find (fun d => d_sig d = s) (delegations L).
Definition find_r (L : list mop) (s : sig) : option rev := snd <$> list_find (fun r => r_sig r = s) (revocations L).
Definition find_opt (L : list mop) (p : option sig) : option (option dlg) := match p with None => Some None | Some s => Some <$> find_d L s end.
Definition resolve_in {cop} (L : list mop) (x : sevent cop) : option mop :=
  match x with
  | EDlg x => match find_opt L (sd_proof x), mapM (find_r L) (sd_after x) with Some p, Some rs => Some (MD (dlg_of x p rs)) | _, _ => None end
  | ERev x => match find_d L (sr_revoke x), find_opt L (sr_proof x) with Some t, Some p => Some (MR (rev_of x t p)) | _, _ => None end
  | _ => None
  end.
Definition covers {cop} (L : list mop) (evs : list (sevent cop)) : Prop := Forall (fun x => match resolve_in L x with Some o => o ∈ L | None => True end) evs.
Lemma find_d_in L d : NoDup (map op_sig L) -> MD d ∈ L -> find_d L (d_sig d) = Some d.
Proof.
  intros N H. pose proof (proj1 (delegations_in _ _) H) as H'. unfold find_d. destruct (list_find (fun e => d_sig e = d_sig d) (delegations L)) as [[i e]|] eqn:F.
  - apply list_find_Some in F as (A & B & _). cbn. f_equal. apply elem_of_list_lookup_2, delegations_in in A. pose proof (NoDup_key op_sig L (MD e) (MD d) N A H B) as Q. congruence.
  - apply list_find_None in F. rewrite Forall_forall in F. exfalso. apply (F d H'). reflexivity.
Qed.
Lemma find_r_in L d : NoDup (map op_sig L) -> MR d ∈ L -> find_r L (r_sig d) = Some d.
Proof.
  intros N H. pose proof (proj1 (revocations_in _ _) H) as H'. unfold find_r. destruct (list_find (fun e => r_sig e = r_sig d) (revocations L)) as [[i e]|] eqn:F.
  - apply list_find_Some in F as (A & B & _). cbn. f_equal. apply elem_of_list_lookup_2, revocations_in in A. pose proof (NoDup_key op_sig L (MR e) (MR d) N A H B) as Q. congruence.
  - apply list_find_None in F. rewrite Forall_forall in F. exfalso. apply (F d H'). reflexivity.
Qed.
Lemma mapM_find_r L rs : NoDup (map op_sig L) -> (forall r, r ∈ rs -> MR r ∈ L) -> mapM (find_r L) (r_sig <$> rs) = Some rs.
Proof.
  intros N. induction rs as [|r rs IH]; intros H; [reflexivity|]. cbn. rewrite (find_r_in L r N) by (apply H; left). cbn. rewrite IH; [reflexivity|]. intros q Q. apply H. right. exact Q.
Qed.
Lemma from_covered {cop} (L : list mop) (evs : list (sevent cop)) : NoDup (map op_sig L) -> covers L evs -> forall o, from_events (fun x => x ∈ evs) o -> o ∈ L.
Proof.
  intros N C. unfold covers in C. rewrite Forall_forall in C.
  fix IH 2. intros o [x p rs Wx Ep Er Hp Hr|x t p Wx Et Ep Ht Hp]; pose proof (C _ Wx) as Q; cbn [resolve_in] in Q.
  - rewrite <- Ep, <- Er in Q. rewrite (mapM_find_r L rs N) in Q by (intros r Hr'; apply IH, Hr, Hr'). destruct p as [p|]; cbn [fmap option_fmap option_map find_opt] in Q.
    + rewrite (find_d_in L p N) in Q by (apply IH, Hp; reflexivity). exact Q.
    + exact Q.
  - rewrite <- Et, <- Ep in Q. rewrite (find_d_in L t N (IH _ Ht)) in Q. destruct p as [p|]; cbn [fmap option_fmap option_map find_opt] in Q.
    + rewrite (find_d_in L p N) in Q by (apply IH, Hp; reflexivity). exact Q.
    + exact Q.
Qed.
Definition owns (L : list mop) (i : ident) : bool := existsb (fun e => d_subject e =? i) (delegations L).
Definition check_parts (L : list mop) : bool :=
  forallb (fun d => forallb (fun r => r_subject r =? d_subject d) (d_after d) &&
                    match d_proof d with Some p => (d_issuer d =? d_delegate p) || negb (owns L (d_delegate p)) | None => true end) (delegations L) &&
  forallb (fun r => match r_proof r with Some p => (d_subject p =? r_subject r) && (existsb (fun q => d_sig q =? d_sig p) (r_revoke r :: lineage (r_revoke r))) | None => true end) (revocations L).
Definition check_people {cop} (L : list mop) (evs : list (sevent cop)) (k : ident -> bool) : bool :=
  forallb (fun d => negb (k (d_subject d)) && forallb (fun x => match x with EKey o => negb (ko_issuer o =? d_subject d) | _ => true end) evs) (delegations L).
Lemma check_tame {cop} (L : list mop) (evs : list (sevent cop)) (W : sevent cop -> Prop) (K : ident -> Prop) (k : ident -> bool) :
  (forall x, W x <-> x ∈ evs) -> (forall i, K i <-> k i = true) -> NoDup (map op_sig L) -> covers L evs -> NoDup (omap ev_sig evs) -> NoDup (map (fun d => (d_subject d, grant_key d)) (delegations L)) ->
  Forall (fun r => match r_proof r with Some p => MD p ∈ L | None => True end) (revocations L) -> (forall d, MD d ∈ L -> forall q, in_chain d q -> MD q ∈ L) -> (forall r, MR r ∈ L -> MD (r_revoke r) ∈ L) ->
  check_parts L = true -> check_people L evs k = true -> tame W K.
Proof.
  intros HW HK N C E G Fp Fc Fr P Q. assert (F : forall o, from_events W o -> o ∈ L).
  { intros o Ho. apply (from_covered L evs N C). clear -Ho HW. revert o Ho. fix IH 2. intros o [x p rs Wx Ep Er Hp Hr|x t p Wx Et Ep Ht Hp].
    - apply from_dlg; [apply HW, Wx|exact Ep|exact Er| |]; intros; apply IH; auto.
    - apply from_rev; [apply HW, Wx|exact Et|exact Ep| |]; intros; apply IH; auto. }
  assert (Ow : forall i, owner W i -> owns L i = true).
  { intros i (d & Hd & <-). unfold owns. apply existsb_exists. exists d. split; [apply elem_of_list_In, delegations_in, F, Hd|]. apply Nat.eqb_refl. }
  apply andb_prop in P as [P1 P2]. rewrite forallb_forall in P1, P2. rewrite Forall_forall in Fp. unfold check_people in Q. rewrite forallb_forall in Q. split.
  - intros x y s Wx Wy Ex Ey. apply HW, elem_of_list_lookup in Wx as (i & Wx). apply HW, elem_of_list_lookup in Wy as (j & Wy). clear -E Ex Ey Wx Wy.
    revert i j Wx Wy. induction evs as [|z evs IH]; intros i j Wx Wy; [discriminate|].
    assert (E' : NoDup (omap ev_sig evs) /\ forall k w, evs !! k = Some w -> is_Some (ev_sig w) -> ev_sig w <> ev_sig z).
    { cbn [omap list_omap] in E. destruct (ev_sig z) as [s'|] eqn:Z.
      - apply NoDup_cons in E as [E1 E2]. split; [exact E2|]. intros k w Hw _ Hs. apply E1. apply elem_of_list_omap. exists w. split; [eapply elem_of_list_lookup_2, Hw|exact Hs].
      - split; [exact E|]. intros k w Hw [s' Hs]. congruence. }
    destruct E' as [E1 E2]. destruct i as [|i], j as [|j]; cbn in Wx, Wy.
    + congruence.
    + exfalso. injection Wx as ->. apply (E2 j y Wy); [eauto|congruence].
    + exfalso. injection Wy as ->. apply (E2 i x Wx); [eauto|congruence].
    + eapply IH; eauto.
  - intros i a b [A SA] [B SB] E1 E2 E3 E4 E5. apply F, delegations_in in A. apply F, delegations_in in B. apply (NoDup_key (fun d => (d_subject d, grant_key d)) (delegations L)); auto.
    cbn in SA, SB. unfold grant_key. rewrite SA, SB, E1, E2, E3, E5. reflexivity.
  - intros d r Hd Hr. apply F, delegations_in, elem_of_list_In in Hd. specialize (P1 _ Hd). apply andb_prop in P1 as [P1 _]. rewrite forallb_forall in P1. apply Nat.eqb_eq, P1, elem_of_list_In, Hr.
  - intros r p Hr E'. apply F, revocations_in, elem_of_list_In in Hr. specialize (P2 _ Hr). rewrite E' in P2. apply andb_prop in P2 as [P2 _]. apply Nat.eqb_eq, P2.
  - intros d p Hd E'. apply F, delegations_in, elem_of_list_In in Hd. specialize (P1 _ Hd). apply andb_prop in P1 as [_ P1]. unfold rests_on in E'. rewrite E' in P1. apply orb_prop in P1 as [P1|P1]; [left; apply Nat.eqb_eq, P1|right].
    intros X. rewrite (Ow _ X) in P1. discriminate.
  - intros r p Hr E'. left. apply F in Hr. pose proof (Fr _ Hr) as Hv. pose proof Hr as Hr'. apply revocations_in in Hr'. pose proof (Fp _ Hr') as Hp. rewrite E' in Hp. apply elem_of_list_In in Hr'. specialize (P2 _ Hr'). rewrite E' in P2. apply andb_prop in P2 as [_ P2].
    apply existsb_exists in P2 as (q & Hq & Eq). apply Nat.eqb_eq in Eq. apply elem_of_list_In, in_chain_lineage in Hq.
    pose proof (NoDup_key op_sig L (MD q) (MD p) N (Fc _ Hv _ Hq) Hp Eq) as Z. congruence.
  - intros i (d & Hd & <-). apply F, delegations_in, elem_of_list_In in Hd. specialize (Q _ Hd). apply andb_prop in Q as [Q1 Q2]. split.
    + rewrite HK. intros X. rewrite X in Q1. discriminate.
    + intros o Wo X. apply HW, elem_of_list_In in Wo. rewrite forallb_forall in Q2. specialize (Q2 _ Wo). cbn in Q2. rewrite X, Nat.eqb_refl in Q2. discriminate.
Qed.

(** ** Running *)
Definition ev := sevent Empty_set.
Definition hv := hive unit Empty_set.
Definition dc (c : nat) (i : ident) : bool := c =? i.
Definition start_client (me : ident) : hv :=
  Hive (KStore me 0 {[ 0 := individual_new (sign 0 (AddKey 7)); me := individual_new (sign me (AddKey (1000 + me))) ]} ∅ ∅) ∅ ∅ ∅ ∅ tt [].
Notation go order := (ingest_all order dc (fun c : Empty_set => match c with end) (fun c : Empty_set => match c with end) (fun _ (x : unit) (_ : Empty_set) => (x, true))).
Notation take order := (receive_event order dc (fun c : Empty_set => match c with end) (fun c : Empty_set => match c with end) (fun _ (x : unit) (_ : Empty_set) => (x, true))).
Notation one order := (ingest_from order dc (fun c : Empty_set => match c with end) (fun c : Empty_set => match c with end) (fun _ (x : unit) (_ : Empty_set) => (x, true))).

Definition key (i : ident) : ev := EKey (sign i (AddKey (1000 + i))).
Definition grant (s : sig) (by_ to_ : ident) (a : access) (p : option sig) (after : list sig) (c : nat) : ev := EDlg (SDlg s by_ to_ a p after c true).
Definition revoke (s : sig) (by_ : ident) (t : sig) (p : option sig) : ev := ERev (SRev s by_ t p 0 true).

(** A group 100 and a document 200 shared with it.  1 adds 2, who adds 50; 1 removes 2 and adds 51. *)
Definition w_root := grant 11 100 1 Admin None [] 0.
Definition w_two := grant 12 1 2 Edit (Some 11) [] 0.
Definition w_fifty := grant 13 2 50 Read (Some 12) [] 0.
Definition w_out := revoke 14 1 12 (Some 11).
Definition w_doc := grant 15 200 100 Admin None [] 200.
Definition w_new := grant 16 1 51 Read (Some 11) [14] 0.
(** Not to be taken: by a stranger, badly signed, on a delegation that never comes. *)
Definition w_stranger := grant 17 9 51 Admin (Some 11) [] 0.
Definition w_forged : ev := EDlg (SDlg 18 1 2 Admin (Some 11) [] 0 false).
Definition w_lost := grant 19 2 51 Read (Some 99) [] 0.
Definition w_events : list ev := [key 1; key 2; key 50; key 51; w_root; w_two; w_fifty; w_out; w_doc; w_new; w_stranger; w_forged; w_lost].
Definition w_batches1 : list (list ev) := [[w_new; w_fifty; w_doc; key 2]; [w_out; w_lost; w_two; key 50]; [w_stranger; w_root; key 1; w_root; key 51; w_forged]].
Definition w_batches2 : list (list ev) := [w_events].

Definition o_root : dlg := Dlg 11 100 1 Admin None [] 0.
Definition o_two : dlg := Dlg 12 1 2 Edit (Some o_root) [] 0.
Definition o_fifty : dlg := Dlg 13 2 50 Read (Some o_two) [] 0.
Definition o_out : rev := Rev 14 1 o_two (Some o_root) 0.
Definition o_doc : dlg := Dlg 15 200 100 Admin None [] 200.
Definition o_new : dlg := Dlg 16 1 51 Read (Some o_root) [o_out] 0.
Definition o_stranger : dlg := Dlg 17 9 51 Admin (Some o_root) [] 0.
Definition o_forged : dlg := Dlg 18 1 2 Admin (Some o_root) [] 0.
Definition w_ops : list mop := [MD o_root; MD o_two; MD o_fifty; MR o_out; MD o_doc; MD o_new; MD o_stranger; MD o_forged].

Lemma w_handed1 x : handed w_batches1 x <-> x ∈ w_events.
Proof.
  unfold handed, w_batches1, w_events. split.
  - intros (b & Hb & Hx). rewrite !elem_of_cons, elem_of_nil in Hb. destruct Hb as [-> |[-> |[-> |[]]]]; rewrite !elem_of_cons, elem_of_nil in Hx; rewrite !elem_of_cons; tauto.
  - rewrite !elem_of_cons, elem_of_nil. intros H.
    destruct H as [-> |[-> |[-> |[-> |[-> |[-> |[-> |[-> |[-> |[-> |[-> |[-> |[-> |[]]]]]]]]]]]]]];
      first [exists [w_new; w_fifty; w_doc; key 2]; split; [in_list|in_list; fail] | exists [w_out; w_lost; w_two; key 50]; split; [in_list|in_list; fail] | exists [w_stranger; w_root; key 1; w_root; key 51; w_forged]; split; [in_list|in_list; fail]].
Qed.
Lemma w_handed2 x : handed w_batches2 x <-> x ∈ w_events.
Proof. unfold handed, w_batches2. split; [intros (b & Hb & Hx); apply elem_of_list_singleton in Hb as ->; exact Hx|]. intros H. exists w_events. split; [left|exact H]. Qed.
Lemma w_tame me W : me = 50 \/ me = 51 -> (forall x, W x <-> x ∈ w_events) -> tame W (fun i => known_agent (start_client me) i = true).
Proof.
  intros M HW. apply (check_tame w_ops w_events W _ (fun i => known_agent (start_client me) i) HW); [reflexivity| | | | | | | | |].
  - apply (bool_decide_unpack _). vm_compute. exact I.
  - unfold covers, w_events. repeat apply Forall_cons_2; try apply Forall_nil_2; vm_compute; try exact I; in_list.
  - apply (bool_decide_unpack _). vm_compute. exact I.
  - apply (bool_decide_unpack _). vm_compute. exact I.
  - vm_compute. repeat constructor.
  - intros d Hd q Hq. apply in_chain_lineage in Hq. unfold w_ops in Hd. rewrite !elem_of_cons, elem_of_nil in Hd.
    destruct Hd as [Q|[Q|[Q|[Q|[Q|[Q|[Q|[Q|[]]]]]]]]]; try discriminate Q; injection Q as ->; cbn in Hq; rewrite !elem_of_cons, elem_of_nil in Hq; repeat (destruct Hq as [-> |Hq]); try destruct Hq; unfold w_ops; in_list.
  - intros r Hr. unfold w_ops in Hr. rewrite !elem_of_cons, elem_of_nil in Hr. destruct Hr as [Q|[Q|[Q|[Q|[Q|[Q|[Q|[Q|[]]]]]]]]]; try discriminate Q; injection Q as ->; unfold w_ops; cbn; in_list.
  - vm_compute. reflexivity.
  - destruct M as [-> | ->]; vm_compute; reflexivity.
Qed.
Lemma w_blank me : blank (start_client me).
Proof. unfold blank. cbn. do 7 (split; [reflexivity|]). rewrite lookup_insert. eauto. Qed.
Lemma w_known me i : known_agent (start_client me) i = true <-> i = 0 \/ i = me.
Proof.
  unfold known_agent, start_client. cbn [h_keys h_groups h_docs ks_active ks_indies]. rewrite !lookup_empty.
  rewrite (bool_decide_false (is_Some (None : option group))) by (intros [? ?]; discriminate). rewrite !orb_false_r, orb_true_iff, Nat.eqb_eq, bool_decide_eq_true.
  destruct (decide (i = 0)) as [-> |N0]; [rewrite lookup_insert; split; eauto|]. rewrite lookup_insert_ne by congruence.
  destruct (decide (i = me)) as [-> |N1]; [rewrite lookup_singleton; split; eauto|]. rewrite lookup_singleton_ne by congruence. split; [intros [?|[? ?]]; [auto|discriminate]|intros [?|?]; contradiction].
Qed.
