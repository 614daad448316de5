(** Prekeys: C24 (replicated set), C25 (never empty, picking), C26 (exporting), C27 (authority). *)
From Coq Require Import Arith NArith Lia.
From stdpp Require Import base list gmap.
From Verif Require Import GroupModel PrekeyModel PrekeySpec PrekeyProofs PrekeyPropsProofs.

(** ** C24 *)

(** The prekeys are the keys introduced by a received operation of the individual and rotated out by none. *)
Theorem C24_prekeys o0 l k :
  k ∈ in_prekeys (receive_all (individual_new o0) l) <->
  current (fun o => o = o0 \/ (o ∈ l /\ genuine (ko_issuer o0) o)) k.
Proof. exact (prekeys_lemma o0 l k). Qed.
Print Assumptions C24_prekeys.

(** Order, repetition and foreign operations do not matter. *)
Theorem C24_order_irrelevant o0 l1 l2 :
  (forall o, genuine (ko_issuer o0) o -> o ∈ l1 <-> o ∈ l2) ->
  receive_all (individual_new o0) l1 = receive_all (individual_new o0) l2.
Proof. intros E. apply order_lemma; [reflexivity|exact E]. Qed.
Print Assumptions C24_order_irrelevant.

Theorem C24_merge_laws x y z :
  in_id x = in_id y ->
  merge_individual x y = merge_individual y x /\
  merge_individual (merge_individual x y) z = merge_individual x (merge_individual y z) /\
  merge_individual (merge_individual x y) y = merge_individual x y /\
  in_ops (merge_individual x y) = in_ops x ∪ in_ops y /\
  (forall k, k ∈ in_prekeys (merge_individual x y) <-> current (fun o => o ∈ in_ops x \/ o ∈ in_ops y) k).
Proof.
  intros I. split_and!.
  - unfold merge_individual. rewrite I, (union_comm_L (in_ops x)). reflexivity.
  - unfold merge_individual. cbn. rewrite (union_assoc_L (in_ops x)). reflexivity.
  - unfold merge_individual. cbn. rewrite <- (union_assoc_L (in_ops x)), (union_idemp_L (in_ops y)). reflexivity.
  - reflexivity.
  - intros k. cbn. rewrite build_spec. apply current_proper. intros o. apply elem_of_union.
Qed.
Print Assumptions C24_merge_laws.

(** Merging a copy is the same as receiving its operations. *)
Theorem C24_merge_is_receive o0 l1 l2 :
  (forall o, o ∈ o0 :: l2 -> genuine (ko_issuer o0) o) ->
  merge_individual (receive_all (individual_new o0) l1) (receive_all (individual_new o0) l2) =
  receive_all (individual_new o0) (l1 ++ l2).
Proof.
  intros G. unfold receive_all at 3. rewrite foldl_app. fold (receive_all (individual_new o0) l1).
  fold (receive_all (receive_all (individual_new o0) l1) l2).
  rewrite (merge_receive _ _ (o0 :: l2)).
  - apply individual_eq.
    + rewrite !receive_all_id. reflexivity.
    + rewrite !receive_all_prekeys by (apply receive_all_prekeys; reflexivity). f_equal. apply set_eq. intros o.
      rewrite !receive_all_ops, receive_all_id. cbn. rewrite elem_of_cons, elem_of_singleton. tauto.
    + apply set_eq. intros o. rewrite !receive_all_ops, receive_all_id. cbn. rewrite elem_of_cons, elem_of_singleton. tauto.
  - intros o. rewrite receive_all_ops, elem_of_list_to_set, elem_of_cons. cbn. rewrite elem_of_singleton. tauto.
  - intros o O _. rewrite receive_all_ops. cbn. rewrite elem_of_singleton. apply elem_of_cons in O as [O|O]; [tauto|].
    right. split; [exact O|]. apply G. right. exact O.
  - intros o. rewrite receive_all_id, receive_all_ops. cbn. rewrite elem_of_singleton. intros [-> |[_ O]]; [|exact O]. apply G. left.
  - apply receive_all_prekeys. reflexivity.
Qed.
Print Assumptions C24_merge_is_receive.

(** What the owner sees locally is what everybody who has the operations sees. *)
Theorem C24_owner_agrees i k0 ks acts a :
  a = foldl act (active_generate i k0 ks) acts -> fresh_run (active_generate i k0 ks) acts ->
  forall o0 l, o0 ∈ in_ops (ac_ind a) -> (forall o, genuine i o -> o ∈ o0 :: l <-> o ∈ in_ops (ac_ind a)) ->
  in_prekeys (receive_all (individual_new o0) l) = in_prekeys (ac_ind a).
Proof.
  intros -> F o0 l O E. destruct (run_genuine i k0 ks acts) as [AI AG]. pose proof (AG o0 O) as G. rewrite AI in G.
  rewrite run_built; [|exact F|reflexivity]. apply set_eq. intros k.
  rewrite prekeys_lemma, build_spec. apply current_proper. intros o. destruct G as [GI _]. rewrite GI. split.
  - intros [-> |[I Go]]; [exact O|]. apply E; [exact Go|]. right. exact I.
  - intros I. pose proof (AG o I) as Go. rewrite AI in Go. apply (E o Go) in I. apply elem_of_cons in I as [-> |I]; [left; reflexivity|]. right. auto.
Qed.
Print Assumptions C24_owner_agrees.

(** A key that was rotated out never comes back. *)
Theorem C24_rotated_out_for_good x o k l :
  in_prekeys x = build (in_ops x) -> o ∈ in_ops x -> old_key o = Some k -> k ∉ in_prekeys (receive_all x l).
Proof.
  intros B O K I. rewrite receive_all_prekeys in I by exact B. apply build_spec in I as [_ I]. apply I. exists o.
  split; [|exact K]. rewrite receive_all_ops. left. exact O.
Qed.
Print Assumptions C24_rotated_out_for_good.

(** The owner keeps the secret of every prekey made on this device. *)
Theorem C24_owner_has_secrets i k0 ks acts :
  (forall o, Receive o ∉ acts) ->
  forall k, k ∈ in_prekeys (ac_ind (foldl act (active_generate i k0 ks) acts)) ->
            k ∈ ac_pairs (foldl act (active_generate i k0 ks) acts).
Proof.
  intros N. assert (B : forall k, k ∈ in_prekeys (ac_ind (active_generate i k0 ks)) -> k ∈ ac_pairs (active_generate i k0 ks)).
  { intros k K. apply build_spec in K as [(o & O & <-) _]. unfold ac_pairs, active_generate in *. cbn [ac_ind in_ops] in O.
    rewrite elem_of_list_to_set, elem_of_list_fmap in O. destruct O as (k & -> & O). rewrite elem_of_list_to_set. exact O. }
  revert B. generalize (active_generate i k0 ks). induction acts as [|c l IH]; intros a B; [exact B|]. cbn. apply IH.
  - intros o O. apply (N o). right. exact O.
  - apply act_pairs; [|exact B]. intros o ->. apply (N o). left.
Qed.
Print Assumptions C24_owner_has_secrets.

Definition ex_add (k : nat) := sign 1 (AddKey k).
Definition ex_rot (a b : nat) := sign 1 (RotateKey a b).
(** The situation of the unit test: five keys, three current. *)
Example C24_example :
  elements (in_prekeys (receive_all (individual_new (ex_add 1)) [ex_add 2; ex_rot 1 3; ex_rot 1 4; ex_rot 4 5])) ≡ₚ [2; 3; 5] /\
  receive_all (individual_new (ex_add 1)) [ex_add 2; ex_rot 1 3; ex_rot 1 4; ex_rot 4 5] =
  receive_all (individual_new (ex_add 1)) [ex_rot 4 5; ex_rot 1 4; ex_rot 1 4; sign 2 (AddKey 9); ex_add 2; KOp 1 (AddKey 8) 2 (AddKey 8); ex_rot 1 3].
Proof.
  split.
  - apply (bool_decide_unpack _). vm_compute. exact I.
  - apply C24_order_irrelevant. intros o [_ [G _]]. rewrite !elem_of_cons, elem_of_nil. cbn.
    split; intuition (subst; try discriminate; auto 10).
Qed.

(** ** C25 *)

(** As long as the individual generates fresh keys, every copy of the individual has a prekey, whichever part
    of the history it has received and in whatever order. *)
Theorem C25_never_empty i H o0 l :
  authored i H -> o0 ∈ H -> (forall o, o ∈ l -> genuine i o -> o ∈ H) ->
  in_prekeys (receive_all (individual_new o0) l) <> ∅.
Proof. exact (never_empty_lemma i H o0 l). Qed.
Print Assumptions C25_never_empty.

(** Receiving an operation whose new key is really new never lowers the number of prekeys. *)
Theorem C25_never_shrinks o0 l o :
  old_key o <> Some (new_key o) ->
  (forall p, p ∈ in_ops (receive_all (individual_new o0) l) -> ~ mentions p (new_key o)) ->
  size (in_prekeys (receive_all (individual_new o0) l)) <= size (in_prekeys (receive_all (individual_new o0) (l ++ [o]))).
Proof.
  intros N F. unfold receive_all at 2. rewrite foldl_app. cbn [foldl]. fold (receive_all (individual_new o0) l).
  apply never_shrinks_lemma; [|exact N|exact F]. apply receive_all_prekeys. reflexivity.
Qed.
Print Assumptions C25_never_shrinks.

Lemma ex_authored : authored 1 [ex_add 1; ex_add 2; ex_rot 1 3; ex_rot 3 4].
Proof.
  pose proof (authored_nil 1) as A0.
  assert (S : forall H o, authored 1 H -> genuine 1 o ->
    forallb (fun p => negb (new_key p =? new_key o) && negb (bool_decide (old_key p = Some (new_key o)))) H = true ->
    old_key o <> Some (new_key o) -> authored 1 (H ++ [o])).
  { intros H o A G F N. apply authored_snoc; [exact A|exact G| |exact N]. intros p P M.
    rewrite forallb_forall in F. specialize (F p (proj1 (elem_of_list_In _ _) P)). apply andb_true_iff in F as [F1 F2].
    apply negb_true_iff in F1, F2. apply Nat.eqb_neq in F1. apply bool_decide_eq_false in F2. destruct M; auto. }
  pose proof (S _ (ex_add 1) A0 ltac:(repeat split) eq_refl ltac:(discriminate)) as A1.
  pose proof (S _ (ex_add 2) A1 ltac:(repeat split) eq_refl ltac:(discriminate)) as A2.
  pose proof (S _ (ex_rot 1 3) A2 ltac:(repeat split) eq_refl ltac:(discriminate)) as A3.
  exact (S _ (ex_rot 3 4) A3 ltac:(repeat split) eq_refl ltac:(discriminate)).
Qed.
Example C25_example :
  in_prekeys (receive_all (individual_new (ex_rot 3 4)) [sign 2 (RotateKey 4 7); ex_rot 1 3]) <> ∅.
Proof.
  apply (C25_never_empty 1 _ _ _ ex_authored).
  - rewrite !elem_of_cons. auto.
  - intros o. rewrite !elem_of_cons, elem_of_nil. intros [-> |[-> |[]]] [E _]; [discriminate|]. auto.
Qed.

(** Out of order the number of prekeys does go down: the second rotation is known before the first. *)
Theorem C25_shrinks_refuted :
  authored 1 [ex_add 1; ex_rot 1 3; ex_rot 3 4] /\
  size (in_prekeys (receive_all (individual_new (ex_add 1)) [ex_rot 3 4])) = 2 /\
  size (in_prekeys (receive_all (individual_new (ex_add 1)) [ex_rot 3 4; ex_rot 1 3])) = 1.
Proof.
  split; [|vm_compute; auto].
  change [ex_add 1; ex_rot 1 3; ex_rot 3 4] with ((([] ++ [ex_add 1]) ++ [ex_rot 1 3]) ++ [ex_rot 3 4]).
  apply authored_snoc; [apply authored_snoc; [apply authored_snoc; [constructor|..]|..]|..]; try (repeat split); try discriminate.
  all: intros p; cbn [app]; rewrite ?elem_of_cons, elem_of_nil; intros P M; repeat (destruct P as [-> |P]); try contradiction;
    destruct M; discriminate.
Qed.
Print Assumptions C25_shrinks_refuted.

(** An individual that rotates in a circle has no prekey, although every operation was accepted, and picking one then
    panics whatever the hash is. *)
Theorem C25_empty_refuted :
  exists o0 l, (forall o, o ∈ o0 :: l -> genuine 1 o) /\
    in_prekeys (receive_all (individual_new o0) l) = ∅ /\
    forall fuel t stream, pick_prekey (S fuel) t stream (elements (in_prekeys (receive_all (individual_new o0) l))) = Some None.
Proof.
  exists (ex_add 1), [ex_rot 1 2; ex_rot 2 1].
  assert (E : in_prekeys (receive_all (individual_new (ex_add 1)) [ex_rot 1 2; ex_rot 2 1]) = ∅) by (apply (bool_decide_unpack _); vm_compute; exact I).
  split; [|split; [exact E|]].
  - intros o. rewrite !elem_of_cons, elem_of_nil. intros [-> |[-> |[-> |[]]]]; repeat split.
  - intros fuel t stream. rewrite E, elements_empty. destruct t; reflexivity.
Qed.
Print Assumptions C25_empty_refuted.

(** Whatever is picked is a current prekey; the only way to fail is a sample equal to the number of prekeys. *)
Theorem C25_pick fuel t stream l :
  pick_prekey fuel t stream l = None \/
  (exists k, pick_prekey fuel t stream l = Some (Some k) /\ k ∈ l) \/
  (pick_prekey fuel t stream l = Some None /\
   pseudorandom_in_range fuel t stream (N.of_nat (length l)) = Some (N.of_nat (length l))).
Proof. exact (pick_lemma fuel t stream l). Qed.
Print Assumptions C25_pick.

(** Sampling ends as soon as the low bits of one sample are zero. *)
Theorem C25_pick_terminates fuel t stream l m :
  (N.of_nat (length l) < 2 ^ 64)%N -> m < fuel -> (stream m mod 2 ^ N.log2 (N.of_nat (length l)) = 0)%N ->
  pick_prekey fuel t stream l <> None.
Proof. exact (pick_stops_lemma fuel t stream l m). Qed.
Print Assumptions C25_pick_terminates.

(** With one to fifteen prekeys picking succeeds, and always picks the same one for every document. *)
Theorem C25_pick_small fuel stream k l :
  length (k :: l) <= 15 -> pick_prekey fuel T64 stream (k :: l) = None \/ pick_prekey fuel T64 stream (k :: l) = Some (Some k).
Proof. exact (pick_first_lemma fuel stream k l). Qed.
Print Assumptions C25_pick_small.
(** On 32 bit targets this is so for any number of prekeys. *)
Theorem C25_pick_32_bit fuel stream k l :
  (N.of_nat (length (k :: l)) < 2 ^ 32)%N -> pick_prekey (S fuel) T32 stream (k :: l) = Some (Some k).
Proof. exact (pick_32_lemma fuel stream k l). Qed.
Print Assumptions C25_pick_32_bit.

Example C25_pick_example :
  pick_prekey 2 T64 (fun n => if (n =? 0)%nat then 5%N else 8%N) [10; 11; 12; 13; 14; 15; 16; 17] = Some (Some 10) /\
  pick_prekey 1 T64 (fun _ => 3)%N (seq 0 39) = Some (Some 24) /\
  pick_prekey 1 T32 (fun _ => 3)%N (seq 0 39) = Some (Some 0).
Proof. vm_compute. auto. Qed.

Definition fresh_check_action (a : active) (c : action) : bool :=
  match c with
  | Expand k => forallb (fun p => negb (new_key p =? k) && negb (bool_decide (old_key p = Some k))) (elements (in_ops (ac_ind a)))
  | Rotate old new => negb (new =? old) &&
      forallb (fun p => negb (new_key p =? new) && negb (bool_decide (old_key p = Some new))) (elements (in_ops (ac_ind a)))
  | Receive _ => true
  end.
Fixpoint fresh_check (a : active) (l : list action) : bool :=
  match l with [] => true | c :: l => fresh_check_action a c && fresh_check (act a c) l end.
Lemma fresh_check_run a l : fresh_check a l = true -> fresh_run a l.
Proof.
  assert (M : forall k (S : gset keyop), forallb (fun p => negb (new_key p =? k) && negb (bool_decide (old_key p = Some k))) (elements S) = true ->
              forall p, p ∈ S -> ~ mentions p k).
  { intros k S F p P. rewrite forallb_forall in F. specialize (F p). rewrite <- elem_of_list_In, elem_of_elements in F.
    specialize (F P). apply andb_true_iff in F as [F1 F2]. apply negb_true_iff in F1, F2. apply Nat.eqb_neq in F1.
    apply bool_decide_eq_false in F2. intros [?|?]; auto. }
  revert a. induction l as [|c l IH]; intros a; cbn; [auto|]. rewrite andb_true_iff. intros [A B]. split; [|apply IH; exact B].
  destruct c as [k|old new|o]; cbn in *; [apply M; exact A| |exact I].
  apply andb_true_iff in A as [A1 A2]. apply negb_true_iff in A1. apply Nat.eqb_neq in A1. split; [exact A1|apply M; exact A2].
Qed.

(** With sixteen prekeys, which an owner reaches by expanding nine times, picking panics for half of all documents: the samples
    that are accepted are those whose low four bits are 0, which picks the first key, or 1, which panics. *)
Theorem C25_pick_refuted :
  exists a acts, a = foldl act (active_generate 1 1 (seq 2 6)) acts /\ fresh_run (active_generate 1 1 (seq 2 6)) acts /\
    size (in_prekeys (ac_ind a)) = 16 /\
    forall l, l ≡ₚ elements (in_prekeys (ac_ind a)) -> forall fuel (stream : nat -> N), (stream 0%nat mod 16 = 1)%N ->
    pick_prekey (S fuel) T64 stream l = Some None.
Proof.
  exists (foldl act (active_generate 1 1 (seq 2 6)) (map Expand (seq 8 9))), (map Expand (seq 8 9)).
  split; [reflexivity|]. split; [|split].
  - apply fresh_check_run. vm_compute. reflexivity.
  - vm_compute. reflexivity.
  - intros l L fuel stream M. assert (LL : length l = 16).
    { rewrite L. vm_compute. reflexivity. }
    unfold pick_prekey, pseudorandom_in_range. rewrite LL. cbn [resample N.of_nat].
    assert (C : clamp T64 (stream 0) (64 - N.log2 16) = 16%N).
    { unfold clamp. replace (64 <=? 64 - N.log2 16)%N with false by reflexivity. rewrite shl_low by (vm_compute; discriminate).
      change (2 ^ N.log2 16)%N with 16%N. rewrite M. reflexivity. }
    change (N.pos (Pos.of_succ_nat 15)) with 16%N. rewrite C. cbn [N.leb]. change (16 <=? 16)%N with true. cbv iota.
    f_equal. apply lookup_ge_None_2. rewrite LL. vm_compute. lia.
Qed.
Print Assumptions C25_pick_refuted.

(** ** C26 *)

(** Whatever part of an honest history is known: exporting terminates and lists, once each and causes first, the
    operations that descend from a known added key. *)
Theorem C26_export i H l fuel :
  authored i H -> NoDup l -> (forall o, o ∈ l -> o ∈ H) -> length l <= fuel ->
  exists r, key_topsort fuel l = Some r /\ NoDup r /\ (forall o, o ∈ r <-> rooted l o) /\
    (forall r1 o r2, r = r1 ++ o :: r2 -> forall k, old_key o = Some k -> exists p, p ∈ r1 /\ new_key p = k).
Proof. exact (export_lemma i H l fuel). Qed.
Print Assumptions C26_export.

(** A complete history in which only keys introduced before are rotated is exported completely. *)
Theorem C26_export_complete i H l fuel :
  authored i H ->
  (forall H1 o H2, H = H1 ++ o :: H2 -> forall k, old_key o = Some k -> exists p, p ∈ H1 /\ new_key p = k) ->
  l ≡ₚ H -> length l <= fuel -> exists r, key_topsort fuel l = Some r /\ r ≡ₚ l.
Proof.
  intros A C P L.
  assert (ND : NoDup H).
  { clear -A. induction A as [|H o A IH G F N]; [constructor|]. apply NoDup_app. split_and!; [exact IH| |apply NoDup_singleton].
    intros x X Y. apply elem_of_list_singleton in Y. subst x. apply (F o X). left. reflexivity. }
  destruct (export_lemma i H l fuel A) as (r & E & N & R & _).
  - rewrite P. exact ND.
  - intros o. rewrite P. auto.
  - exact L.
  - exists r. split; [exact E|]. apply NoDup_Permutation; [exact N|rewrite P; exact ND|]. intros o. rewrite R. split.
    + destruct 1; assumption.
    + intros O. rewrite P in O. pose proof (closed_rooted i H A C o O) as Ro. clear -Ro P.
      induction Ro as [o O E|o p O Ro IH E]; [apply rooted_add|apply (rooted_rotate l o p)]; auto; rewrite P; exact O.
Qed.
Print Assumptions C26_export_complete.

Example C26_example :
  key_topsort 4 [ex_rot 3 4; ex_add 2; ex_rot 1 3; ex_add 1] = Some [ex_add 1; ex_rot 1 3; ex_rot 3 4; ex_add 2].
Proof. vm_compute. reflexivity. Qed.

(** A client that knows somebody only from their contact card, which is a rotation (keyhive.rs 319-328), exports nothing
    about them. *)
Theorem C26_contact_card_refuted :
  authored 1 [ex_add 1; ex_rot 1 3] /\
  elements (in_ops (individual_new (ex_rot 1 3))) = [ex_rot 1 3] /\
  (forall fuel, key_topsort fuel [ex_rot 1 3] = Some []).
Proof.
  split; [|split; [vm_compute; reflexivity|]].
  - change [ex_add 1; ex_rot 1 3] with (([] ++ [ex_add 1]) ++ [ex_rot 1 3]).
    apply authored_snoc; [apply authored_snoc; [constructor|..]|..]; try (repeat split); try discriminate.
    all: intros p; cbn [app]; rewrite ?elem_of_cons, elem_of_nil; intros P M; repeat (destruct P as [-> |P]); try contradiction;
      destruct M; discriminate.
  - intros [|fuel]; reflexivity.
Qed.
Print Assumptions C26_contact_card_refuted.

(** For an individual that rotates in a circle, exporting never ends. *)
Theorem C26_circle_refuted :
  (forall o, o ∈ [ex_add 1; ex_rot 1 2; ex_rot 2 1] -> genuine 1 o) /\
  (forall fuel, key_topsort fuel [ex_add 1; ex_rot 1 2; ex_rot 2 1] = None).
Proof.
  split.
  - intros o. rewrite !elem_of_cons, elem_of_nil. intros [-> |[-> |[-> |[]]]]; repeat split.
  - set (l := [ex_add 1; ex_rot 1 2; ex_rot 2 1]).
    assert (Z : forall fuel acc, topsort_loop fuel l [ex_rot 1 2] acc = None /\ topsort_loop fuel l [ex_rot 2 1] acc = None).
    { induction fuel as [|f IH]; intros acc; [split; reflexivity|]. split; cbn [topsort_loop].
      - change (reverse (rotations_of l (new_key (ex_rot 1 2))) ++ []) with [ex_rot 2 1]. apply IH.
      - change (reverse (rotations_of l (new_key (ex_rot 2 1))) ++ []) with [ex_rot 1 2]. apply IH. }
    intros [|fuel]; [reflexivity|]. unfold key_topsort. change (reverse (filter _ l)) with [ex_add 1]. cbn [topsort_loop].
    change (reverse (rotations_of l (new_key (ex_add 1))) ++ []) with [ex_rot 1 2]. apply Z.
Qed.
Print Assumptions C26_circle_refuted.

(** If two operations introduce the same key, what follows it is exported twice. *)
Theorem C26_twice_refuted :
  (forall o, o ∈ [ex_add 1; ex_add 2; ex_rot 1 3; ex_rot 2 3; ex_rot 3 4] -> genuine 1 o) /\
  exists r, key_topsort 7 [ex_add 1; ex_add 2; ex_rot 1 3; ex_rot 2 3; ex_rot 3 4] = Some r /\
    length r = 6 /\ length (filter (fun o => o = ex_rot 3 4) r) = 2.
Proof.
  split.
  - intros o. rewrite !elem_of_cons, elem_of_nil. intros [-> |[-> |[-> |[-> |[-> |[]]]]]]; repeat split.
  - exists [ex_add 2; ex_rot 2 3; ex_rot 3 4; ex_add 1; ex_rot 1 3; ex_rot 3 4]. vm_compute. auto.
Qed.
Print Assumptions C26_twice_refuted.

(** ** C27 *)

(** An individual takes exactly the operations it signed itself; anything else is refused and changes nothing. *)
Theorem C27_receive x o :
  (genuine (in_id x) o -> (receive_key x o).2 = None /\ in_ops (receive_key x o).1 = {[ o ]} ∪ in_ops x) /\
  (~ genuine (in_id x) o -> exists e, receive_key x o = (x, Some e)).
Proof.
  split.
  - intros G. rewrite receive_key_genuine by exact G. split; reflexivity.
  - exact (receive_key_rejected x o).
Qed.
Print Assumptions C27_receive.

(** The client: an operation touches only the individual that it names as its author ... *)
Theorem C27_others_untouched s o j :
  j <> ko_issuer o -> known (receive_prekey_op s o).1 j = known s j /\ known (receive_contact_card s o).1 j = known s j.
Proof. intros N. split; [exact (client_others s o j N)|exact (contact_others s o j N)]. Qed.
Print Assumptions C27_others_untouched.

(** ... and for an individual already known, a forged operation is refused and the client is left as it was; *)
Theorem C27_known_protected s o x :
  known s (ko_issuer o) = Some x -> in_id x = ko_issuer o -> ko_issuer o <> ks_public s -> ~ genuine (ko_issuer o) o ->
  receive_prekey_op s o = (s, Some EVerification).
Proof.
  intros K I P G. apply (client_rejects s o x K I P). destruct (verifies o) eqn:V; [|reflexivity].
  destruct G. apply verifies_genuine; [reflexivity|exact V].
Qed.
Print Assumptions C27_known_protected.

(** so that through any sequence of operations they keep just what they signed. *)
Theorem C27_only_own s l i x :
  known s i = Some x -> in_id x = i -> (forall o, o ∈ in_ops x -> genuine i o) ->
  exists x', known (foldl (fun s o => (receive_prekey_op s o).1) s l) i = Some x' /\ in_id x' = i /\
    (forall o, o ∈ in_ops x' -> genuine i o) /\ in_ops x ⊆ in_ops x'.
Proof.
  intros K I G. subst i. destruct (client_run_genuine s l (in_id x) x K eq_refl G) as (x' & A & B & C & D).
  exists x'. unfold all_genuine in C. rewrite B in C. auto.
Qed.
Print Assumptions C27_only_own.

Definition ex_victim := individual_new (sign 5 (AddKey 50)).
Definition ex_store := KStore 1 0 {[ 0 := individual_new (sign 0 (AddKey 0)); 1 := individual_new (ex_add 1); 5 := ex_victim ]} ∅ {[ 7 := None ]}.
(** Made by 9 in the name of another. *)
Definition ex_forged (i : nat) := KOp i (AddKey 66) 9 (AddKey 66).
Example C27_example :
  known ex_store 5 = Some ex_victim /\ receive_prekey_op ex_store (ex_forged 5) = (ex_store, Some EVerification) /\
  (receive_prekey_op ex_store (sign 5 (AddKey 51))).2 = None.
Proof.
  split; [reflexivity|]. split; [|reflexivity].
  apply (C27_known_protected _ _ ex_victim); [reflexivity|reflexivity|discriminate|]. intros [_ [G _]]. discriminate.
Qed.

(** For somebody not yet known a forged operation becomes a prekey: received as an event it is reported as an error but
    kept, received as a contact card it is accepted; and so it is for a group known only by its identifier. *)
Theorem C27_unknown_refuted :
  known ex_store 6 = None /\ ~ genuine 6 (ex_forged 6) /\
  (receive_prekey_op ex_store (ex_forged 6)).2 = Some EVerification /\
  (exists x, known (receive_prekey_op ex_store (ex_forged 6)).1 6 = Some x /\ in_prekeys x = {[ 66 ]}) /\
  (receive_contact_card ex_store (ex_forged 6)).2 = None /\
  (exists x, known (receive_contact_card ex_store (ex_forged 6)).1 6 = Some x /\ in_prekeys x = {[ 66 ]}) /\
  (receive_prekey_op ex_store (ex_forged 7)).2 = None /\
  (exists x, known (receive_prekey_op ex_store (ex_forged 7)).1 7 = Some x /\ in_prekeys x = {[ 66 ]}).
Proof.
  assert (B : forall i, build {[ ex_forged i ]} = {[ 66 ]}).
  { intros i. unfold build. rewrite elements_singleton. apply (bool_decide_unpack _). vm_compute. exact I. }
  split_and!; try reflexivity.
  - intros [_ [G _]]. discriminate.
  - exists (individual_new (ex_forged 6)). split; [reflexivity|apply B].
  - exists (individual_new (ex_forged 6)). split; [reflexivity|apply B].
  - exists (individual_new (ex_forged 7)). split; [reflexivity|apply B].
Qed.
Print Assumptions C27_unknown_refuted.

(** The well-known public individual, whose signing key everybody has, ignores prekey events ... *)
Theorem C27_public_fixed s o : ko_issuer o = ks_public s -> receive_prekey_op s o = (s, None).
Proof. intros E. apply public_kept. symmetry. exact E. Qed.
Print Assumptions C27_public_fixed.
(** ... but not contact cards: its only prekey can be rotated away. *)
Theorem C27_public_refuted :
  ks_public ex_store = 0 /\
  (receive_contact_card ex_store (sign 0 (RotateKey 0 77))).2 = None /\
  exists x, known (receive_contact_card ex_store (sign 0 (RotateKey 0 77))).1 0 = Some x /\ elements (in_prekeys x) = [77].
Proof.
  split_and!; [reflexivity|reflexivity|]. eexists. split; [reflexivity|]. vm_compute. reflexivity.
Qed.
Print Assumptions C27_public_refuted.
