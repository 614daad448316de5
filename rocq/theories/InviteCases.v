(** A concrete run of [InviteSpec]: client 2 makes a contact card, client 1, who did not know of 2, gets it, makes document 9
    and invites 2 with the prekey of the card. *)
From Coq Require Import Arith Lia.
From stdpp Require Import base list gmap relations.
From Verif Require Import ResModel KeysModel TreeModel OpsModel CgkaModel CgkaSpec NetSpec GrowSpec ReadSpec.
From Verif Require Import AccessModel GroupModel GroupSpec GroupExamples PrekeyModel HiveModel HiveSpec DocModel TransactModel DocSpec DocExamples TeamSpec TeamCases.
From Verif Require Import ArriveSpec InviteModel InviteSpec InviteProps.

Definition v_pick (_ : nat) (h : client) (i _ : ident) : share_key := match elements (prekeys_of h i) with k :: _ => k | [] => 0 end.
Lemma v_picks : picks v_pick.
Proof.
  intros r h i d Ne. unfold v_pick. destruct (elements (prekeys_of h i)) as [|k l] eqn:E; [apply elements_empty_inv in E; exfalso; apply Ne, leibniz_equiv, E|].
  apply elem_of_elements. rewrite E. left.
Qed.
Notation careful := (careful_step c_order c_ho c_ro v_pick mentions).
Notation reached := (careful_reachable c_order c_ho c_ro v_pick mentions).

(** A client that knows only itself. *)
Definition fresh (i : ident) : client :=
  Hive (KStore i 0 {[ i := individual_new (sign i (AddKey (20 + i))) ]} ∅ ∅) ∅ ∅ ∅ ∅ (Cgs {[ pub (20 + i) := 20 + i ]} ∅) [].
Definition v0 : team := Team (<[1 := fresh 1]> {[ 2 := fresh 2 ]}) (fun _ => ∅) [].
Definition done {A} (x : option (client * A)) : client := match x with Some (h, _) => h | None => fresh 0 end.
Definition v_first := make_prekey (fresh 2) (fun a k => active_rotate a 22 k) 62.
Definition v_second := make_prekey (done v_first) (fun a k => active_rotate a 62 k) 63.
Definition v_card : keyop := sign 2 (RotateKey 22 62).
Definition v1 : team := went (went v0 2 (done v_first)) 2 (done v_second).
Definition v_met : client := put_keys (fresh 1) (receive_contact_card (h_keys (fresh 1)) v_card).1.
Definition v2 : team := went v1 1 v_met.
Definition v_doc := hive_generate_doc asc hord rord (v_pick 1 v_met) v_met 9 [(1, 91)] 0 40 1 (seq 2 10) 15 (seq 50 10).
Definition v3 : team := went v2 1 v_doc.1.
Definition v_add := hive_add_member asc hord rord (v_pick 1 v_doc.1) v_doc.1 9 2 Read 0 92 (at9 20).
Definition v4 : team := went v3 1 v_add.1.

Lemma v0_clients r h : tm_clients v0 !! r = Some h -> (r = 1 /\ h = fresh 1) \/ (r = 2 /\ h = fresh 2).
Proof. cbn [v0 tm_clients]. intros E. apply lookup_insert_Some in E as [[<- <-]|[_ E]]; [auto|]. apply lookup_singleton_Some in E as [<- <-]. auto. Qed.
Lemma fresh_records i j x : ks_indies (h_keys (fresh i)) !! j = Some x -> j = i /\ x = individual_new (sign i (AddKey (20 + i))).
Proof. cbn [fresh h_keys ks_indies]. intros E. apply lookup_singleton_Some in E as [<- <-]. auto. Qed.
Lemma v0_reached : reached v0.
Proof.
  apply cr_start.
  - apply tr_start; [|reflexivity|reflexivity]. intros r h E. assert (Ok : forall i, h_groups (fresh i) = ∅ /\ h_docs (fresh i) = ∅ /\ cs_docs (h_cg (fresh i)) = ∅ /\ good_sks (cs_pairs (h_cg (fresh i)))).
    { intros i. do 3 (split; [reflexivity|]). intros p s. cbn [fresh h_cg cs_pairs]. rewrite lookup_singleton_Some. intros [<- <-]. reflexivity. }
    destruct (v0_clients _ _ E) as [[_ ->]|[_ ->]]; apply Ok.
  - reflexivity.
  - assert (K : forall i j o, o ∈ keyops_of (fresh i) (me (fresh j)) -> is_Some (cs_pairs (h_cg (fresh j)) !! new_key o)).
    { intros i j o. unfold keyops_of. destruct (ks_indies (h_keys (fresh i)) !! me (fresh j)) as [x|] eqn:E; [|intros X; apply elem_of_empty in X; contradiction]. apply fresh_records in E as [<- ->].
      cbn [individual_new in_ops]. intros X. apply elem_of_singleton in X as ->. cbn [sign new_key ko_pay]. change (me (fresh j)) with j. cbn [fresh h_cg cs_pairs]. change (pub (20 + j)) with (20 + j). rewrite lookup_singleton. eauto. }
    intros r h r' g o E E'. destruct (v0_clients _ _ E) as [[_ ->]|[_ ->]], (v0_clients _ _ E') as [[_ ->]|[_ ->]]; apply K.
  - assert (K : forall i j k, k ∈ prekeys_of (fresh i) j -> exists o, o ∈ keyops_of (fresh i) j /\ new_key o = k).
    { intros i j k. unfold prekeys_of, keyops_of. destruct (ks_indies (h_keys (fresh i)) !! j) as [x|] eqn:E; [|intros X; apply elem_of_empty in X; contradiction]. apply fresh_records in E as [-> ->].
      cbn [individual_new in_ops in_prekeys]. intros X. apply PrekeyProofs.build_spec in X as [X _]. exact X. }
    intros r h i k E. destruct (v0_clients _ _ E) as [[_ ->]|[_ ->]]; apply K.
  - intros r h E i x. destruct (v0_clients _ _ E) as [[_ ->]|[_ ->]]; intros X; apply fresh_records in X as [-> ->]; reflexivity.
Qed.
Definition is {A} (x : option (client * A)) : bool := match x with Some _ => true | None => false end.
Lemma is_done {A} (x : option (client * A)) : is x = true -> exists o, x = Some (done x, o).
Proof. destruct x as [[h o]|]; [eauto|discriminate]. Qed.
Lemma v1_reached : reached v1.
Proof.
  assert (A : forall h, me h = 2 -> forall t, tm_clients t = <[2 := h]> (tm_clients v0) -> alone t 2 h).
  { intros h Mh t C r' g. rewrite C, Mh. intros E Me. apply lookup_insert_Some in E as [[<- _]|[N E]]; [reflexivity|]. destruct (v0_clients _ _ E) as [[-> ->]|[-> _]]; [discriminate Me|reflexivity]. }
  destruct (is_done v_first) as [o1 Q1]; [vm_compute; reflexivity|]. destruct (is_done v_second) as [o2 Q2]; [vm_compute; reflexivity|].
  eapply cr_step; [eapply cr_step; [exact v0_reached|]|].
  - eapply (cf_rotate _ _ _ _ _ v0 2 (fresh 2) 22 62); [reflexivity| |exact Q1]. apply A; [reflexivity|]. cbn [v0 tm_clients]. rewrite insert_commute by discriminate. rewrite insert_singleton. reflexivity.
  - eapply (cf_rotate _ _ _ _ _ _ 2 (done v_first) 62 63); [apply lookup_insert| |exact Q2]. apply A; reflexivity.
Qed.
Lemma v1_clients r g : tm_clients v1 !! r = Some g -> (r = 2 /\ g = done v_second) \/ (r = 1 /\ g = fresh 1).
Proof. unfold v1. cbn [went tm_clients]. rewrite insert_insert. intros E. apply lookup_insert_Some in E as [[<- <-]|[N E]]; [auto|]. destruct (v0_clients _ _ E) as [[-> ->]|[-> _]]; [auto|contradiction]. Qed.
Lemma v2_reached : reached v2.
Proof.
  eapply cr_step; [exact v1_reached|]. apply (cf_card _ _ _ _ _ v1 1 (fresh 1) v_card); [reflexivity|]. intros r g E Me.
  destruct (v1_clients _ _ E) as [[-> ->]|[-> ->]]; [|discriminate Me]. apply (bool_decide_unpack _). vm_compute. exact I.
Qed.
Lemma v2_who r g : tm_clients v2 !! r = Some g -> me g = 1 \/ me g = 2.
Proof.
  unfold v2. cbn [went tm_clients]. intros E. apply lookup_insert_Some in E as [[<- <-]|[N E]]; [left; reflexivity|]. destruct (v1_clients _ _ E) as [[_ ->]|[_ ->]]; [right; vm_compute; reflexivity|left; reflexivity].
Qed.
(** Only document 9 has a key, and prekeys of both are on record. *)
Definition fit (h h' : client) : bool :=
  bool_decide (dom (cs_docs (h_cg h')) ⊆ ({[ 9 ]} : gset nat)) && bool_decide (prekeys_of h 1 <> ∅) && bool_decide (prekeys_of h 2 <> ∅).
Lemma fit_ok t h h' : fit h h' = true -> (forall r g, tm_clients t !! r = Some g -> me g = 1 \/ me g = 2) ->
  forall d x o id pk i ps qs r' g, tm_ops t d !! x = None -> tm_ops (went t 1 h') d !! x = Some o -> so_op o = CAdd id pk i ps qs ->
    tm_clients t !! r' = Some g -> me g = id -> id <> d /\ prekeys_of h id <> ∅.
Proof.
  intros B Who d x o id pk i ps qs r' g U K _ E Me. apply andb_true_iff in B as [B B2]. apply andb_true_iff in B as [B0 B1].
  apply bool_decide_eq_true in B0, B1, B2. cbn in K. rewrite (lookup_union_r _ _ _ U) in K.
  assert (d = 9) as ->. { unfold TeamSpec.known_ops, cgka_of in K. destruct (cs_docs (h_cg h') !! d) as [c|] eqn:Ec; [|rewrite lookup_empty in K; discriminate]. apply elem_of_dom_2 in Ec. apply B0, elem_of_singleton in Ec. exact Ec. }
  destruct (Who _ _ E) as [X|X]; rewrite X in Me; subst id; (split; [discriminate|assumption]).
Qed.
Definition same_records (h h' : client) : Prop := ks_indies (h_keys h') = ks_indies (h_keys h).
Lemma v_doc_pair : v_doc = (v_doc.1, v_doc.2).
Proof. apply surjective_pairing. Qed.
Lemma v_doc_records : same_records v_met v_doc.1.
Proof. vm_compute. reflexivity. Qed.
Lemma v_doc_fit : fit v_met v_doc.1 = true.
Proof. vm_compute. reflexivity. Qed.
Lemma v2_one : tm_clients v2 !! 1 = Some v_met.
Proof. apply lookup_insert. Qed.
Lemma v2_none : tm_ops v2 9 = ∅.
Proof. apply map_to_list_empty_iff. vm_compute. reflexivity. Qed.
Lemma v_pks_new : NoDup (1 :: seq 2 10 ++ [15]).
Proof. apply (bool_decide_unpack _). vm_compute. exact I. Qed.
Lemma v3_step : team_step c_order c_ho c_ro v_pick mentions v2 v3.
Proof. exact (ts_doc c_order c_ho c_ro v_pick mentions v2 1 v_met 9 [(1, 91)] 0 40 1 (seq 2 10) 15 (seq 50 10) v_doc.1 v_doc.2 v2_one v2_none v_pks_new v_doc_pair). Qed.
Lemma v3_reached : reached v3.
Proof. exact (cr_step _ _ _ _ _ v2 v3 v2_reached (cf_call _ _ _ _ _ v2 1 v_met v_doc.1 v3 v2_one v3_step eq_refl v_doc_records (fit_ok v2 v_met v_doc.1 v_doc_fit v2_who))). Qed.
Lemma v3_who r g : tm_clients v3 !! r = Some g -> me g = 1 \/ me g = 2.
Proof. unfold v3. cbn [went tm_clients]. intros E. apply lookup_insert_Some in E as [[<- <-]|[N E]]; [left; vm_compute; reflexivity|]. exact (v2_who _ _ E). Qed.
Lemma v_add_pair : v_add = (v_add.1, v_add.2).
Proof. apply surjective_pairing. Qed.
Lemma v_add_records : same_records v_doc.1 v_add.1.
Proof. vm_compute. reflexivity. Qed.
Lemma v_add_fit : fit v_doc.1 v_add.1 = true.
Proof. vm_compute. reflexivity. Qed.
Lemma v3_one : tm_clients v3 !! 1 = Some v_doc.1.
Proof. apply lookup_insert. Qed.
Lemma v3_new : forall j, unseen v3 j (at9 20 j).
Proof. apply new9_ok. vm_compute. reflexivity. Qed.
Lemma v4_step : team_step c_order c_ho c_ro v_pick mentions v3 v4.
Proof. exact (ts_add c_order c_ho c_ro v_pick mentions v3 1 v_doc.1 9 2 Read 0 92 (at9 20) v_add.1 v_add.2 v3_one v3_new v_add_pair). Qed.
Lemma v4_reached : reached v4.
Proof. exact (cr_step _ _ _ _ _ v3 v4 v3_reached (cf_call _ _ _ _ _ v3 1 v_doc.1 v_add.1 v4 v3_one v4_step eq_refl v_add_records (fit_ok v3 v_doc.1 v_add.1 v_add_fit v3_who))). Qed.
(** Client 2 was invited with the prekey of the card, which it has rotated out of its own prekeys since. *)
Definition invites (t : team) (d id pk : nat) : bool :=
  existsb (fun x => match so_op x.2 with CAdd j k _ _ _ => (j =? id) && (k =? pk) | _ => false end) (map_to_list (tm_ops t d)).
Lemma invites_ok t d id pk : invites t d id pk = true -> exists x o i ps qs, tm_ops t d !! x = Some o /\ so_op o = CAdd id pk i ps qs.
Proof.
  unfold invites. rewrite existsb_exists. intros ([x o] & In & B). apply elem_of_list_In, elem_of_map_to_list in In. cbn [snd] in B. destruct (so_op o) as [j k i ps qs| |] eqn:So; [|discriminate B..].
  apply andb_true_iff in B as [B1 B2]. apply Nat.eqb_eq in B1, B2. subst. exists x, o, i, ps, qs. auto.
Qed.
Lemma went_other (t : team) r r' h g : r <> r' -> tm_clients t !! r' = Some g -> tm_clients (went t r h) !! r' = Some g.
Proof. intros N E. cbn [went tm_clients]. rewrite lookup_insert_ne by exact N. exact E. Qed.
Lemma v4_two : tm_clients v4 !! 2 = Some (done v_second).
Proof.
  assert (N : 1 <> 2) by discriminate.
  exact (went_other v3 1 2 v_add.1 _ N (went_other v2 1 2 v_doc.1 _ N (went_other v1 1 2 v_met _ N (lookup_insert _ _ _)))).
Qed.
Lemma v_two_me : me (done v_second) = 2.
Proof. vm_compute. reflexivity. Qed.
Example C61_case : exists t h x o i ps qs, reached t /\ tm_clients t !! 2 = Some h /\ me h = 2 /\ tm_ops t 9 !! x = Some o /\ so_op o = CAdd 2 62 i ps qs /\
  62 ∉ prekeys_of h 2 /\ is_Some (cs_pairs (h_cg h) !! 62).
Proof.
  destruct (invites_ok v4 9 2 62) as (x & o & i & ps & qs & Eo & So); [vm_compute; reflexivity|]. exists v4, (done v_second), x, o, i, ps, qs.
  assert (E : tm_clients v4 !! 2 = Some (done v_second)) by exact v4_two.
  assert (Me : me (done v_second) = 2) by exact v_two_me.
  split; [exact v4_reached|]. split; [exact E|]. split; [exact Me|]. split; [exact Eo|]. split; [exact So|]. split; [apply (bool_decide_unpack _); vm_compute; exact I|].
  exact (C61_invited c_order c_ho c_ro v_pick mentions (proj1 c_orders) (proj1 (proj2 c_orders)) (proj2 (proj2 c_orders)) v_picks v4 2 (done v_second) 9 x o 2 62 i ps qs v4_reached E Eo So (eq_sym Me)).
Qed.
