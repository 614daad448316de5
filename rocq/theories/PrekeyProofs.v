(** Proofs about prekeys. *)
From Coq Require Import Arith NArith Lia.
From stdpp Require Import base list gmap.
From Verif Require Import GroupModel PrekeyModel PrekeySpec.

(** ** Building *)

Lemma verifies_genuine o i : ko_issuer o = i -> verifies o = true <-> genuine i o.
Proof.
  intros <-. unfold verifies, genuine. rewrite andb_true_iff, Nat.eqb_eq, bool_decide_eq_true. tauto.
Qed.

Lemma build_spec ops k : k ∈ build ops <-> current (.∈ ops) k.
Proof.
  unfold build, current. rewrite elem_of_difference, !elem_of_list_to_set, elem_of_list_fmap, elem_of_list_omap.
  setoid_rewrite elem_of_elements. split; intros [(o & A & B) C]; split; eauto; intros (p & D & E); eauto.
Qed.

Lemma receive_key_spec x o :
  receive_key x o =
  if bool_decide (ko_issuer o = in_id x) then
    if verifies o then (Individual (in_id x) (build ({[ o ]} ∪ in_ops x)) ({[ o ]} ∪ in_ops x), None)
    else (x, Some EVerification)
  else (x, Some EIncorrectSigner).
Proof.
  unfold receive_key. destruct (Nat.eqb_spec (ko_issuer o) (in_id x)) as [E|E].
  - rewrite bool_decide_eq_true_2 by done. cbn. by destruct (verifies o).
  - by rewrite bool_decide_eq_false_2 by done.
Qed.

Lemma receive_key_genuine x o :
  genuine (in_id x) o ->
  receive_key x o = (Individual (in_id x) (build ({[ o ]} ∪ in_ops x)) ({[ o ]} ∪ in_ops x), None).
Proof.
  intros G. rewrite receive_key_spec. rewrite bool_decide_eq_true_2 by apply G.
  by rewrite (proj2 (verifies_genuine o (in_id x) (proj1 G)) G).
Qed.

Lemma receive_key_rejected x o :
  ~ genuine (in_id x) o -> exists e, receive_key x o = (x, Some e).
Proof.
  intros G. rewrite receive_key_spec. case_bool_decide; [|eauto].
  destruct (verifies o) eqn:V; [|eauto]. destruct G. by apply verifies_genuine.
Qed.

Lemma receive_key_id x o : in_id (receive_key x o).1 = in_id x.
Proof. rewrite receive_key_spec. case_bool_decide; [destruct (verifies o)|]; done. Qed.

Global Instance genuine_dec i o : Decision (genuine i o).
Proof. unfold genuine. apply _. Defined.

Lemma receive_all_id x l : in_id (receive_all x l) = in_id x.
Proof.
  revert x. induction l as [|o l IH]; intros x; [done|]. unfold receive_all in *. cbn.
  by rewrite IH, receive_key_id.
Qed.

Lemma receive_all_ops x l o :
  o ∈ in_ops (receive_all x l) <-> o ∈ in_ops x \/ (o ∈ l /\ genuine (in_id x) o).
Proof.
  revert x. induction l as [|p l IH]; intros x; unfold receive_all in *; cbn.
  - rewrite elem_of_nil. tauto.
  - rewrite IH, receive_key_id, elem_of_cons.
    destruct (decide (genuine (in_id x) p)) as [G|G].
    + rewrite receive_key_genuine by done. cbn. rewrite elem_of_union, elem_of_singleton.
      split; [intros [[->|?]|[? ?]]; auto|]. intros [?|[[->|?] ?]]; auto.
    + destruct (receive_key_rejected _ _ G) as [e ->]. cbn.
      split; [tauto|]. intros [?|[[->|?] ?]]; tauto.
Qed.

Lemma receive_all_prekeys x l :
  in_prekeys x = build (in_ops x) -> in_prekeys (receive_all x l) = build (in_ops (receive_all x l)).
Proof.
  revert x. induction l as [|p l IH]; intros x E; [done|]. unfold receive_all in *. cbn. apply IH.
  destruct (decide (genuine (in_id x) p)) as [G|G].
  - by rewrite receive_key_genuine.
  - by destruct (receive_key_rejected _ _ G) as [e ->].
Qed.

Lemma current_proper (P Q : keyop -> Prop) k : (forall o, P o <-> Q o) -> current P k <-> current Q k.
Proof. intros E. unfold current. by setoid_rewrite E. Qed.

Lemma prekeys_lemma o0 l k :
  let P o := o = o0 \/ (o ∈ l /\ genuine (ko_issuer o0) o) in
  k ∈ in_prekeys (receive_all (individual_new o0) l) <-> current P k.
Proof.
  intros P. rewrite receive_all_prekeys by done. rewrite build_spec. apply current_proper.
  intros o. rewrite receive_all_ops. cbn. by rewrite elem_of_singleton.
Qed.

Lemma individual_eq x y :
  in_id x = in_id y -> in_prekeys x = in_prekeys y -> in_ops x = in_ops y -> x = y.
Proof. destruct x, y. cbn. by intros -> -> ->. Qed.

Lemma order_lemma x l1 l2 :
  in_prekeys x = build (in_ops x) ->
  (forall o, genuine (in_id x) o -> o ∈ l1 <-> o ∈ l2) ->
  receive_all x l1 = receive_all x l2.
Proof.
  intros B E. assert (O : in_ops (receive_all x l1) = in_ops (receive_all x l2)).
  { apply set_eq. intros o. rewrite !receive_all_ops. specialize (E o). tauto. }
  apply individual_eq; [by rewrite !receive_all_id| |done].
  by rewrite !receive_all_prekeys, O.
Qed.

Lemma merge_receive x y l :
  in_ops y ⊆ list_to_set l -> (forall o, o ∈ l -> genuine (in_id x) o -> o ∈ in_ops y) ->
  (forall o, o ∈ in_ops y -> genuine (in_id x) o) -> in_prekeys x = build (in_ops x) ->
  merge_individual x y = receive_all x l.
Proof.
  intros A B C D. assert (O : in_ops (receive_all x l) = in_ops x ∪ in_ops y).
  { apply set_eq. intros o. rewrite receive_all_ops, elem_of_union. split; [|].
    - intros [?|[? ?]]; eauto.
    - intros [?|F]; [tauto|]. right. split; [|by apply C]. apply A in F. by rewrite elem_of_list_to_set in F. }
  apply individual_eq; cbn; [by rewrite receive_all_id| |done].
  by rewrite receive_all_prekeys, O.
Qed.

(** ** The active agent *)

Lemma built_union o ops :
  (forall p, p ∈ ops -> old_key p <> Some (new_key o)) -> old_key o <> Some (new_key o) ->
  build ({[ o ]} ∪ ops) = {[ new_key o ]} ∪ (build ops ∖ match old_key o with Some k => {[ k ]} | None => ∅ end).
Proof.
  intros F N. apply set_eq. intros k. rewrite build_spec, elem_of_union, elem_of_difference, elem_of_singleton, build_spec.
  unfold current. split.
  - intros [(p & P & <-) Z]. apply elem_of_union in P as [P|P].
    + apply elem_of_singleton in P. subst p. by left.
    + right. split; [split; [eauto|intros (q & Q & R); apply Z; exists q; split; [apply elem_of_union; by right|done]]|].
      destruct (old_key o) eqn:E; [|apply not_elem_of_empty]. intros S. apply elem_of_singleton in S.
      apply Z. exists o. split; [apply elem_of_union; left; by apply elem_of_singleton|]. congruence.
  - intros [->|[[(p & P & <-) Z] W]].
    + split; [exists o; split; [apply elem_of_union; left; by apply elem_of_singleton|done]|].
      intros (q & Q & R). apply elem_of_union in Q as [Q|Q]; [apply elem_of_singleton in Q; subst; auto|].
      by apply (F q).
    + split; [exists p; split; [apply elem_of_union; by right|done]|].
      intros (q & Q & R). apply elem_of_union in Q as [Q|Q]; [|by apply Z; exists q].
      apply elem_of_singleton in Q. subst q. rewrite R in W. apply W. by apply elem_of_singleton.
Qed.

Lemma act_built a c :
  fresh_action a c -> in_prekeys (ac_ind a) = build (in_ops (ac_ind a)) ->
  in_prekeys (ac_ind (act a c)) = build (in_ops (ac_ind (act a c))).
Proof.
  intros F B. destruct c as [k|old new|o]; cbn in *.
  - rewrite built_union; cbn.
    + by rewrite B, difference_empty_L.
    + intros p P E. apply (F p P). by right.
    + done.
  - destruct F as [N F]. rewrite built_union; cbn.
    + by rewrite B.
    + intros p P E. apply (F p P). by right.
    + congruence.
  - destruct (decide (genuine (in_id (ac_ind a)) o)) as [G|G].
    + by rewrite receive_key_genuine.
    + by destruct (receive_key_rejected _ _ G) as [e ->].
Qed.

Lemma run_built a l :
  fresh_run a l -> in_prekeys (ac_ind a) = build (in_ops (ac_ind a)) ->
  in_prekeys (ac_ind (foldl act a l)) = build (in_ops (ac_ind (foldl act a l))).
Proof.
  revert a. induction l as [|c l IH]; intros a; [done|]. cbn. intros [F R] B. apply IH; [done|]. by apply act_built.
Qed.

Lemma act_pairs a c :
  (forall o, c <> Receive o) ->
  (forall k, k ∈ in_prekeys (ac_ind a) -> k ∈ ac_pairs a) -> forall k, k ∈ in_prekeys (ac_ind (act a c)) -> k ∈ ac_pairs (act a c).
Proof.
  intros NR I k. destruct c as [x|old new|o]; cbn.
  - rewrite !elem_of_union. intros [?|?]; auto.
  - rewrite !elem_of_union, elem_of_difference. intros [?|[? ?]]; auto.
  - by destruct (NR o).
Qed.

(** ** Never empty *)

Lemma authored_genuine i H o : authored i H -> o ∈ H -> genuine i o.
Proof.
  induction 1 as [|H p A IH G F N]; [by rewrite elem_of_nil|]. rewrite elem_of_app, elem_of_list_singleton.
  intros [?| ->]; auto.
Qed.

(** The newest operation of any non-empty part of the history still has its key. *)
Lemma authored_current i H (P : keyop -> Prop) :
  (forall o, P o \/ ~ P o) -> authored i H -> (forall o, P o -> o ∈ H) -> (exists o, P o) -> exists k, current P k.
Proof.
  intros D A. revert P D. induction A as [|H o A IH G F N]; intros P D S [x X].
  - apply S in X. by apply elem_of_nil in X.
  - destruct (D o) as [Po|Po].
    + exists (new_key o). split; [eauto|]. intros (p & Pp & E). destruct (decide (p = o)) as [->|NE]; [auto|].
      apply S in Pp. rewrite elem_of_app, elem_of_list_singleton in Pp. destruct Pp as [Pp|Pp]; [|auto].
      apply (F p Pp). by right.
    + apply IH; [done| |eauto]. intros p Pp. specialize (S p Pp). rewrite elem_of_app, elem_of_list_singleton in S.
      destruct S as [?| ->]; [done|]. by destruct Po.
Qed.

Lemma never_empty_lemma i H o0 l :
  authored i H -> o0 ∈ H -> (forall o, o ∈ l -> genuine i o -> o ∈ H) ->
  in_prekeys (receive_all (individual_new o0) l) <> ∅.
Proof.
  intros A O U E. pose proof (authored_genuine _ _ _ A O) as G0.
  destruct (authored_current i H (.∈ in_ops (receive_all (individual_new o0) l))) as [k K].
  - intros o. destruct (decide (o ∈ in_ops (receive_all (individual_new o0) l))); auto.
  - done.
  - intros o. rewrite receive_all_ops. cbn. rewrite elem_of_singleton. destruct G0 as [-> _].
    intros [->|[? ?]]; auto.
  - exists o0. rewrite receive_all_ops. left. cbn. by apply elem_of_singleton.
  - apply build_spec in K. rewrite <- receive_all_prekeys in K by done. rewrite E in K. by apply not_elem_of_empty in K.
Qed.

Lemma never_shrinks_lemma x o :
  in_prekeys x = build (in_ops x) -> old_key o <> Some (new_key o) ->
  (forall p, p ∈ in_ops x -> ~ mentions p (new_key o)) ->
  size (in_prekeys x) <= size (in_prekeys (receive_key x o).1).
Proof.
  intros B N F. destruct (decide (genuine (in_id x) o)) as [G|G].
  - rewrite receive_key_genuine by done. cbn. rewrite built_union; [|intros p P E; apply (F p P); by right|done].
    rewrite B. assert (NI : new_key o ∉ build (in_ops x)).
    { intros K. apply build_spec in K as [(p & P & E) _]. apply (F p P). by left. }
    rewrite size_union by (intros k K1 K2; apply elem_of_singleton in K1; subst; apply elem_of_difference in K2 as [K2 _]; done).
    rewrite size_singleton. destruct (old_key o) as [k|].
    + destruct (decide (k ∈ build (in_ops x))) as [I|I].
      * rewrite size_difference by (intros y Y; apply elem_of_singleton in Y; by subst). rewrite size_singleton. lia.
      * replace (build (in_ops x) ∖ {[ k ]}) with (build (in_ops x)); [lia|]. apply set_eq. intros y.
        rewrite elem_of_difference, elem_of_singleton. split; [|tauto]. intros Y. split; [done|]. by intros ->.
    + rewrite difference_empty_L. lia.
  - destruct (receive_key_rejected _ _ G) as [e ->]. done.
Qed.

(** ** Picking a prekey *)

Lemma resample_spec fuel t stream shift max n i :
  resample fuel t stream shift max n = Some i -> (i <= max)%N /\ exists m, i = clamp t (stream m) shift.
Proof.
  revert n. induction fuel as [|f IH]; intros n; [done|]. cbn. case (N.leb_spec (clamp t (stream n) shift) max); intros L E.
  - injection E as <-. eauto.
  - eauto.
Qed.

Lemma resample_stops fuel t stream shift max n m :
  n <= m -> m < n + fuel -> (clamp t (stream m) shift <= max)%N -> resample fuel t stream shift max n <> None.
Proof.
  revert n. induction fuel as [|f IH]; intros n A B C; [lia|]. cbn.
  case (N.leb_spec (clamp t (stream n) shift) max); intros L; [done|].
  apply IH; [|lia|done]. destruct (decide (n = m)) as [->|]; [|lia]. lia.
Qed.

Lemma shl_low x d : (d <= 64)%N -> ((x * 2 ^ (64 - d)) mod 2 ^ 64 = (x mod 2 ^ d) * 2 ^ (64 - d))%N.
Proof.
  intros L. replace (2 ^ 64)%N with (2 ^ d * 2 ^ (64 - d))%N.
  - rewrite N.mul_mod_distr_r; [done| |]; by apply N.pow_nonzero.
  - rewrite <- N.pow_add_r. f_equal. lia.
Qed.

Lemma clamp_small x n :
  (1 <= n)%N -> (n <= 15)%N -> (clamp T64 x (64 - N.log2 n) <= n)%N -> clamp T64 x (64 - N.log2 n) = 0%N.
Proof.
  intros L U C. assert (D : (N.log2 n < 4)%N) by (apply N.log2_lt_pow2; [lia|]; cbn; lia).
  assert (Low : (2 ^ N.log2 n <= n)%N) by (apply N.log2_spec; lia).
  revert C. unfold clamp. set (d := N.log2 n) in *.
  destruct (N.eq_dec d 0) as [E|E].
  - rewrite E. by replace (64 <=? 64 - 0)%N with true.
  - destruct (N.leb_spec 64 (64 - d)) as [?|?]; [lia|].
    rewrite shl_low by lia.
    assert (Y : (x mod 2 ^ d < 2 ^ d)%N) by (apply N.mod_lt; by apply N.pow_nonzero).
    set (y := (x mod 2 ^ d)%N) in *. clearbody y.
    assert (P : (d = 1 \/ d = 2 \/ d = 3)%N) by lia.
    destruct P as [ -> |[ -> | -> ]]; cbn in Y, Low.
    + assert (Q : (y = 0 \/ y = 1)%N) by lia. destruct Q as [-> | ->]; [done|]. vm_compute (swap_bytes _ _ _). lia.
    + assert (Q : (y = 0 \/ y = 1 \/ y = 2 \/ y = 3)%N) by lia.
      destruct Q as [-> |[-> |[-> | ->]]]; vm_compute (swap_bytes _ _ _); lia.
    + assert (Q : (y = 0 \/ y = 1 \/ y = 2 \/ y = 3 \/ y = 4 \/ y = 5 \/ y = 6 \/ y = 7)%N) by lia.
      destruct Q as [-> |[-> |[-> |[-> |[-> |[-> |[-> | ->]]]]]]]; vm_compute (swap_bytes _ _ _); lia.
Qed.

Lemma pick_lemma fuel t stream l :
  pick_prekey fuel t stream l = None \/
  (exists k, pick_prekey fuel t stream l = Some (Some k) /\ k ∈ l) \/
  (pick_prekey fuel t stream l = Some None /\
   pseudorandom_in_range fuel t stream (N.of_nat (length l)) = Some (N.of_nat (length l))).
Proof.
  unfold pick_prekey. destruct (pseudorandom_in_range fuel t stream (N.of_nat (length l))) as [i|] eqn:E; [|by left].
  right. unfold pseudorandom_in_range in E. apply resample_spec in E as [L _].
  destruct (l !! N.to_nat i) as [k|] eqn:G.
  - left. exists k. split; [done|]. by eapply elem_of_list_lookup_2.
  - right. split; [done|]. apply lookup_ge_None in G. f_equal. lia.
Qed.

Lemma pick_first_lemma fuel stream k l :
  length (k :: l) <= 15 -> pick_prekey fuel T64 stream (k :: l) = None \/ pick_prekey fuel T64 stream (k :: l) = Some (Some k).
Proof.
  intros L. unfold pick_prekey. destruct (pseudorandom_in_range _ _ _ _) as [i|] eqn:E; [|by left]. right.
  unfold pseudorandom_in_range in E. apply resample_spec in E as [B [m ->]].
  rewrite clamp_small; [done| | |done]; cbn [length] in *; lia.
Qed.

Lemma clamp_zero t x d : (d <= 64)%N -> (x mod 2 ^ d = 0)%N -> clamp t x (64 - d) = 0%N.
Proof.
  intros L M. unfold clamp. destruct (N.leb_spec 64 (64 - d)) as [?|?]; [by destruct t|].
  rewrite shl_low, M, N.mul_0_l by done. by destruct t.
Qed.

Lemma pick_stops_lemma fuel t stream l m :
  (N.of_nat (length l) < 2 ^ 64)%N -> m < fuel -> (stream m mod 2 ^ N.log2 (N.of_nat (length l)) = 0)%N ->
  pick_prekey fuel t stream l <> None.
Proof.
  intros S L Z. unfold pick_prekey, pseudorandom_in_range.
  destruct (resample _ _ _ _ _ _) eqn:E; [done|]. exfalso. revert E. apply (resample_stops _ _ _ _ _ _ m); [lia|lia|].
  rewrite clamp_zero; [lia| |done]. destruct (N.eq_dec (N.of_nat (length l)) 0) as [E|E]; [rewrite E; cbn; lia|].
  apply N.lt_le_incl. apply N.log2_lt_pow2; [lia|exact S].
Qed.

Lemma pick_32_lemma fuel stream k l :
  (N.of_nat (length (k :: l)) < 2 ^ 32)%N -> pick_prekey (S fuel) T32 stream (k :: l) = Some (Some k).
Proof.
  intros S. unfold pick_prekey, pseudorandom_in_range. cbn [resample].
  assert (E : clamp T32 (stream 0) (64 - N.log2 (N.of_nat (length (k :: l)))) = 0%N).
  { unfold clamp. destruct (N.leb_spec 64 (64 - N.log2 (N.of_nat (length (k :: l))))) as [?|G]; [done|].
    assert (D : (N.log2 (N.of_nat (length (k :: l))) < 32)%N) by (apply N.log2_lt_pow2; [cbn [length]; lia|done]).
    set (d := N.log2 _) in *. rewrite shl_low by lia.
    replace (2 ^ (64 - d))%N with (2 ^ (32 - d) * 2 ^ 32)%N by (rewrite <- N.pow_add_r; f_equal; lia).
    rewrite N.mul_assoc, N.mod_mul by (by apply N.pow_nonzero). done. }
  rewrite E. replace (0 <=? N.of_nat (length (k :: l)))%N with true by (symmetry; apply N.leb_le; lia). done.
Qed.
