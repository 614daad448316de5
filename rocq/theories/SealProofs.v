(** Proofs about sealing and the envelope's encoding. *)
From Coq Require Import Arith NArith Lia Sorted.
From stdpp Require Import base list gmap.
From Verif Require Import SealModel SealSpec.

(** ** Sealing *)
Section seal.
Context (enc dec : symkey -> bytes -> bytes -> bytes -> option bytes) (h : bytes -> bytes).
Context (Hc : cipher_ok enc dec) (Hh : hash24_ok h).

Lemma siv_length k p a : length (siv_new h k p a) = 24.
Proof. apply Hh. Qed.
Lemma seal_split k p a b :
  try_seal enc h k p a = Some b ->
  exists c, b = siv_new h k p a ++ c /\ enc k (siv_new h k p a) SEPARATOR p = Some c.
Proof.
  unfold try_seal, try_encrypt. destruct (enc _ _ _ _) as [c|] eqn:E; [|discriminate].
  intros [= <-]. eauto.
Qed.
Lemma open_app k n c : length n = 24 -> try_open dec k (n ++ c) = dec k n SEPARATOR c.
Proof.
  intros L. unfold try_open, NONCE_LEN. rewrite app_length, L.
  destruct (Nat.ltb_spec (24 + length c) 24) as [?|_]; [lia|].
  rewrite take_app_alt, drop_app_alt by auto. reflexivity.
Qed.
Lemma open_inv k b p :
  try_open dec k b = Some p -> exists n c, b = n ++ c /\ length n = 24 /\ enc k n SEPARATOR p = Some c.
Proof.
  unfold try_open, NONCE_LEN. destruct (Nat.ltb_spec (length b) 24) as [?|L]; [discriminate|].
  intros E. exists (take 24 b), (drop 24 b). split; [symmetry; apply take_drop|].
  split; [rewrite take_length; lia|]. apply (ok_only _ _ Hc). exact E.
Qed.
End seal.

(** ** Integers *)
Lemma le_length n x : length (le n x) = n.
Proof. revert x; induction n as [|n IH]; intros x; cbn; [reflexivity|]. now rewrite IH. Qed.
Lemma un_le_le n x : (x < 256 ^ N.of_nat n)%N -> un_le (le n x) = x.
Proof.
  revert x; induction n as [|n IH]; intros x L.
  - cbn in *. lia.
  - cbn [le un_le]. rewrite IH.
    + pose proof (N.div_mod x 256). lia.
    + rewrite Nat2N.inj_succ, N.pow_succ_r' in L. apply N.div_lt_upper_bound; lia.
Qed.
Lemma le64_length x : length (le64 x) = 8.
Proof. apply le_length. Qed.
Lemma read_n_app n a b : length a = n -> read_n n (a ++ b) = Some (a, b).
Proof.
  intros L. unfold read_n. rewrite app_length, L.
  destruct (Nat.ltb_spec (n + length b) n) as [?|_]; [lia|].
  now rewrite take_app_alt, drop_app_alt by auto.
Qed.
Lemma read_u64_app x b : (x < 2 ^ 64)%N -> read_u64 (le64 x ++ b) = Some (x, b).
Proof.
  intros L. unfold read_u64. rewrite read_n_app by apply le64_length.
  unfold le64. rewrite un_le_le by exact L. reflexivity.
Qed.
Lemma read_vec_app p b : (N.of_nat (length p) < 2 ^ 64)%N -> read_vec (write_vec p ++ b) = Some (p, b).
Proof.
  intros L. unfold read_vec, write_vec. rewrite <- app_assoc, read_u64_app by exact L.
  destruct (N.ltb_spec (N.of_nat (length (p ++ b))) (N.of_nat (length p))) as [H|_].
  - rewrite app_length in H. lia.
  - rewrite Nat2N.id. now apply read_n_app.
Qed.

(** ** The map *)
Definition entry_ok (e : N * (cref * symkey)) : Prop := (e.1 < 2 ^ 64)%N /\ length e.2.1 = 32 /\ length e.2.2 = 32.
Lemma read_entry_app e b : entry_ok e -> read_entry (write_entry e ++ b) = Some (e, b).
Proof.
  destruct e as [h [r k]]. intros (Lh & Lr & Lk). cbn in Lh, Lr, Lk.
  unfold read_entry, write_entry, REF_LEN. cbn [fst snd]. rewrite <- !app_assoc.
  rewrite read_u64_app by exact Lh. rewrite read_n_app by exact Lr. rewrite read_n_app by exact Lk.
  reflexivity.
Qed.
Lemma read_entries_app l b fuel :
  Forall entry_ok l -> length l <= fuel ->
  read_entries fuel (N.of_nat (length l)) (concat (map write_entry l) ++ b) = Some (l, b).
Proof.
  intros F. revert fuel; induction F as [|e l He F IH]; intros fuel L.
  - destruct fuel; reflexivity.
  - destruct fuel as [|fuel]; [cbn in L; lia|]. cbn [read_entries map concat].
    destruct (N.eqb_spec (N.of_nat (length (e :: l))) 0) as [E|_]; [cbn in E; lia|].
    rewrite <- app_assoc, read_entry_app by exact He.
    replace (N.of_nat (length (e :: l)) - 1)%N with (N.of_nat (length l)) by (cbn [length]; lia).
    rewrite IH by (cbn in L; lia). reflexivity.
Qed.
Lemma write_entry_length e : 8 <= length (write_entry e).
Proof. unfold write_entry. rewrite app_length, le64_length. lia. Qed.
Lemma concat_entries_length l : length l <= length (concat (map write_entry l)).
Proof.
  induction l as [|e l IH]; cbn; [lia|]. rewrite app_length. pose proof (write_entry_length e). lia.
Qed.

Definition keys_sorted (t : btree) : Prop := StronglySorted N.lt (map fst t).
Lemma bt_insert_elem k v t e : e ∈ bt_insert k v t -> e = (k, v) \/ e ∈ t.
Proof.
  induction t as [|[k' v'] t IH]; cbn.
  - intros H%elem_of_list_singleton. auto.
  - destruct (k <? k')%N; [|destruct (k =? k')%N].
    + rewrite elem_of_cons. tauto.
    + rewrite !elem_of_cons. tauto.
    + rewrite !elem_of_cons. intros [?|?]; [tauto|]. destruct IH; tauto.
Qed.
Lemma bt_insert_sorted k v t : keys_sorted t -> keys_sorted (bt_insert k v t).
Proof.
  unfold keys_sorted. induction t as [|[k' v'] t IH]; cbn; intros S.
  - constructor; [constructor|constructor].
  - apply StronglySorted_inv in S as [S F].
    destruct (N.ltb_spec k k'); [|destruct (N.eqb_spec k k') as [->|N]].
    + cbn. constructor; [now constructor|]. constructor; [assumption|].
      eapply Forall_impl; [exact F|]. intros; lia.
    + cbn. now constructor.
    + cbn. constructor; [auto|]. apply Forall_forall. intros x Hx.
      apply elem_of_list_fmap in Hx as ([x' vx] & -> & Hx).
      apply bt_insert_elem in Hx as [[= -> ->]|Hx]; cbn; [lia|].
      rewrite Forall_forall in F. apply F, elem_of_list_fmap. exists (x', vx). auto.
Qed.
Lemma bt_insert_fresh k v t : k ∉ map fst t -> bt_insert k v t ≡ₚ (k, v) :: t.
Proof.
  induction t as [|[k' v'] t IH]; cbn; intros H; [reflexivity|].
  rewrite not_elem_of_cons in H. destruct H as [H1 H2].
  destruct (k <? k')%N; [reflexivity|]. destruct (N.eqb_spec k k') as [->|_]; [tauto|].
  rewrite IH by exact H2. apply perm_swap.
Qed.
Lemma bt_fold_perm l : forall t, NoDup (map fst l ++ map fst t) ->
  foldl (fun t kv => bt_insert kv.1 kv.2 t) t l ≡ₚ l ++ t.
Proof.
  induction l as [|[k v] l IH]; intros t ND; [reflexivity|]. cbn in *.
  apply NoDup_cons in ND as [N ND]. rewrite elem_of_app in N.
  assert (P : bt_insert k v t ≡ₚ (k, v) :: t) by (apply bt_insert_fresh; tauto).
  rewrite IH.
  - rewrite P. symmetry. apply Permutation_middle.
  - pose proof (fmap_Permutation fst _ _ P) as P'. cbn in P'.
    change (NoDup (map fst l ++ (fst <$> bt_insert k v t))).
    rewrite P'. change (NoDup (map fst l ++ k :: map fst t)). rewrite <- Permutation_middle.
    constructor; [rewrite elem_of_app; tauto|exact ND].
Qed.
Lemma bt_collect_perm l : NoDup (map fst l) -> bt_collect l ≡ₚ l.
Proof. intros ND. unfold bt_collect. rewrite bt_fold_perm; rewrite ?app_nil_r; auto. Qed.
Lemma bt_fold_sorted l : forall t, keys_sorted t -> keys_sorted (foldl (fun t kv => bt_insert kv.1 kv.2 t) t l).
Proof.
  induction l as [|[k v] l IH]; intros t S; [exact S|]. cbn. apply IH, bt_insert_sorted, S.
Qed.
Lemma bt_collect_sorted l : keys_sorted (bt_collect l).
Proof. apply bt_fold_sorted. constructor. Qed.
Lemma keys_sorted_NoDup t : keys_sorted t -> NoDup (map fst t).
Proof.
  unfold keys_sorted. induction (map fst t) as [|x l IH]; intros S; constructor.
  - apply StronglySorted_inv in S as [_ F]. rewrite Forall_forall in F. intros H.
    specialize (F _ H). lia.
  - apply IH. apply StronglySorted_inv in S as [S _]. exact S.
Qed.
Lemma bt_insert_end k v t : Forall (fun x => x < k)%N (map fst t) -> bt_insert k v t = t ++ [(k, v)].
Proof.
  induction t as [|[k' v'] t IH]; cbn; intros F; [reflexivity|].
  apply Forall_cons in F as [L F].
  destruct (N.ltb_spec k k'); [lia|]. destruct (N.eqb_spec k k'); [lia|]. now rewrite IH.
Qed.
Lemma bt_fold_id l : forall t, keys_sorted (t ++ l) -> foldl (fun t kv => bt_insert kv.1 kv.2 t) t l = t ++ l.
Proof.
  induction l as [|[k v] l IH]; intros t S; cbn; [now rewrite app_nil_r|].
  rewrite bt_insert_end.
  - rewrite IH; rewrite <- app_assoc; [reflexivity|exact S].
  - clear IH. unfold keys_sorted in S. induction t as [|[k' v'] t IH]; cbn in *; [constructor|].
    apply StronglySorted_inv in S as [S F]. constructor; [|auto].
    rewrite Forall_forall in F. apply F. rewrite map_app. apply elem_of_app. right. apply elem_of_list_here.
Qed.
Lemma bt_collect_id t : keys_sorted t -> bt_collect t = t.
Proof. intros S. unfold bt_collect. now rewrite bt_fold_id. Qed.

Lemma bt_insert_iff k v t : keys_sorted t -> forall k' v', (k', v') ∈ bt_insert k v t <-> (k' = k /\ v' = v) \/ (k' <> k /\ (k', v') ∈ t).
Proof.
  unfold keys_sorted. induction t as [|[k1 v1] t IH]; cbn [bt_insert map]; intros S k' v'.
  - rewrite elem_of_list_singleton. split; [intros [= -> ->]; auto|]. intros [[-> ->]|[_ H]]; [reflexivity|now apply elem_of_nil in H].
  - apply StronglySorted_inv in S as [S F]. rewrite Forall_forall in F.
    assert (L : forall x y, (x, y) ∈ t -> (k1 < x)%N).
    { intros x y H. apply F, elem_of_list_fmap. exists (x, y). auto. }
    cbn [fst] in *. destruct (N.ltb_spec k k1); [|destruct (N.eqb_spec k k1) as [->|N]].
    + rewrite !elem_of_cons. split.
      * intros [[= -> ->]|[[= -> ->]|H1]]; [auto| |]; right.
        -- split; [lia|auto].
        -- split; [apply L in H1; lia|auto].
      * intros [[-> ->]|[_ H1]]; auto.
    + rewrite !elem_of_cons. split.
      * intros [[= -> ->]|H1]; [auto|]. right. split; [apply L in H1; lia|auto].
      * intros [[-> ->]|[N [[= -> ->]|H1]]]; [auto|congruence|auto].
    + rewrite !elem_of_cons, IH by exact S. split.
      * intros [[= -> ->]|[[-> ->]|[N1 H1]]]; auto.
      * intros [[-> ->]|[N1 [[= -> ->]|H1]]]; auto.
Qed.
Lemma bt_collect_last (l : list (N * (cref * symkey))) k v : (k, v) ∈ bt_collect l <->
  exists l1 l2, l = l1 ++ (k, v) :: l2 /\ k ∉ map fst l2.
Proof.
  induction l as [|[k1 v1] l IH] using List.rev_ind.
  - split; [intros H; now apply elem_of_nil in H|]. intros (l1 & l2 & E & _). now destruct l1.
  - unfold bt_collect in *. rewrite foldl_app. cbn [foldl fst snd]. rewrite bt_insert_iff by apply (bt_fold_sorted l []), SSorted_nil.
    rewrite IH. split.
    + intros [[-> ->]|[N (l1 & l2 & -> & H)]].
      * exists l, []. split; [reflexivity|apply not_elem_of_nil].
      * exists l1, (l2 ++ [(k1, v1)]). split; [now rewrite <- app_assoc|]. rewrite map_app. intros [H1|H1]%elem_of_app; [auto|].
        apply elem_of_list_singleton in H1. auto.
    + intros (l1 & l2 & E & H). destruct l2 as [|y l2 _] using List.rev_ind.
      * apply app_inj_tail in E as [_ [= -> ->]]. auto.
      * rewrite app_comm_cons, app_assoc in E. apply app_inj_tail in E as [-> <-]. rewrite map_app in H.
        right. split; [intros ->; apply H, elem_of_app; right; apply elem_of_list_here|]. exists l1, l2. split; [reflexivity|].
        intros H1. apply H, elem_of_app. auto.
Qed.
Lemma fold_insert_map (l : list (N * (cref * symkey))) : forall m : gmap cref symkey,
  NoDup (map (fun e => e.2.1) l) ->
  forall r k, (foldl (fun m e => <[e.2.1 := e.2.2]> m) m l) !! r = Some k <->
    (r, k) ∈ map snd l \/ (r ∉ map (fun e => e.2.1) l /\ m !! r = Some k).
Proof.
  induction l as [|[h [r' k']] l IH]; intros m ND r k; cbn in *.
  - split; [intros H; right; split; [apply not_elem_of_nil|exact H]|].
    intros [H|[_ H]]; [now apply elem_of_nil in H|exact H].
  - apply NoDup_cons in ND as [N ND]. rewrite IH by exact ND.
    rewrite !elem_of_cons. destruct (decide (r = r')) as [->|Nr].
    + rewrite lookup_insert. split.
      * intros [H|[_ [= ->]]]; auto.
      * intros [[[= ->]|H]|[H _]].
        -- right. auto.
        -- auto.
        -- exfalso. apply H. auto.
    + rewrite lookup_insert_ne by congruence. split.
      * intros [H|[H1 H2]]; [auto|]. right. split; [|exact H2]. intros [?|?]; tauto.
      * intros [[[= -> ->]|H]|[H1 H2]]; [congruence|auto|]. right. split; [|exact H2]. intros ?; apply H1; auto.
Qed.

Section map.
Context (h : cref -> N) (order : gmap cref symkey -> list (cref * symkey)).
Context (Hh : hash64_ok h) (Ho : any_order order).
Lemma ordered_entries_ok e : fits e -> Forall entry_ok (ordered h order (en_ancestors e)).
Proof.
  intros (F & _). apply Forall_forall. intros x Hx.
  assert (Hx' : x ∈ map (fun kv => (h kv.1, kv)) (order (en_ancestors e))).
  { revert Hx. unfold ordered, bt_collect. generalize (map (fun kv => (h kv.1, kv)) (order (en_ancestors e))). intros l.
    assert (G : forall t, x ∈ foldl (fun t kv => bt_insert kv.1 kv.2 t) t l -> x ∈ t \/ x ∈ l).
    { induction l as [|[k v] l IH]; intros t Hx; [auto|]. cbn in Hx. apply IH in Hx as [Hx|Hx].
      - apply bt_insert_elem in Hx as [->|Hx]; [right; apply elem_of_list_here|auto].
      - right. now apply elem_of_list_further. }
    intros Hx. apply G in Hx as [Hx|Hx]; [now apply elem_of_nil in Hx|exact Hx]. }
  apply elem_of_list_fmap in Hx' as ([r k] & -> & Hx').
  rewrite (Ho _) in Hx'. apply elem_of_map_to_list in Hx'.
  destruct (F _ _ Hx') as [Lr Lk]. split; [apply Hh|]. auto.
Qed.
Lemma ordered_length m : length (ordered h order m) <= size m.
Proof.
  assert (G : forall l t, length (foldl (fun t kv => bt_insert kv.1 kv.2 t) t l) <= length t + length (l : list (N * (cref * symkey)))).
  { induction l as [|[k v] l IH]; intros t; cbn; [lia|]. rewrite IH.
    assert (length (bt_insert k v t) <= S (length t)); [|lia].
    clear. induction t as [|[k' v'] t IH]; cbn; [lia|]. destruct (k <? k')%N; [cbn; lia|]. destruct (k =? k')%N; cbn; lia. }
  unfold ordered, bt_collect. rewrite G. cbn. rewrite map_length, (Ho m). 
  unfold size, map_size. lia.
Qed.
(** What a reader sees, whatever the hashes. *)
Lemma deserialize_serialize e junk :
  fits e ->
  deserialize (serialize h order e ++ junk) =
  Some (Envelope (en_plain e) (foldl (fun m x => <[x.2.1 := x.2.2]> m) ∅ (ordered h order (en_ancestors e)))).
Proof.
  intros F. pose proof F as (_ & Lp & Ls). unfold deserialize, serialize.
  rewrite <- app_assoc, read_vec_app by exact Lp.
  unfold read_map, write_map. rewrite <- app_assoc, read_u64_app.
  2:{ pose proof (ordered_length (en_ancestors e)). lia. }
  rewrite read_entries_app.
  - rewrite bt_collect_id; [reflexivity|]. apply bt_collect_sorted.
  - now apply ordered_entries_ok.
  - rewrite app_length. pose proof (concat_entries_length (ordered h order (en_ancestors e))). lia.
Qed.
Lemma ordered_perm e : distinct_hashes h e ->
  ordered h order (en_ancestors e) ≡ₚ map (fun kv => (h kv.1, kv)) (order (en_ancestors e)).
Proof.
  intros D. apply bt_collect_perm. rewrite map_map. cbn.
  assert (G : forall l : list (cref * symkey), NoDup (map fst l) -> (forall r, r ∈ map fst l -> r ∈ dom (en_ancestors e)) ->
    NoDup (map (fun kv => h kv.1) l)).
  { induction l as [|[r k] l IH]; cbn; intros ND I; [constructor|]. apply NoDup_cons in ND as [N ND]. constructor.
    - intros Hx. apply elem_of_list_fmap in Hx as ([r' k'] & E & Hx). cbn in E. apply N.
      rewrite (D r r'); [|apply I, elem_of_list_here| |exact E].
      + apply elem_of_list_fmap. exists (r', k'). auto.
      + apply I, elem_of_list_further, elem_of_list_fmap. exists (r', k'). auto.
    - apply IH; [exact ND|]. intros r' Hr. apply I. now apply elem_of_list_further. }
  apply G.
  - assert (P : map fst (order (en_ancestors e)) ≡ₚ (map_to_list (en_ancestors e)).*1).
    { change (map fst (order (en_ancestors e))) with ((order (en_ancestors e)).*1). now rewrite (Ho _). }
    rewrite P. apply NoDup_fst_map_to_list.
  - intros r Hr. apply elem_of_list_fmap in Hr as ([r' k] & -> & Hr). rewrite (Ho _) in Hr.
    apply elem_of_map_to_list in Hr. apply elem_of_dom. eauto.
Qed.
Lemma ordered_refs_NoDup m : NoDup (map (fun e => e.2.1) (ordered h order m)).
Proof.
  (* Keys are determined by the references. *)
  assert (K : forall x, x ∈ ordered h order m -> x.1 = h x.2.1).
  { unfold ordered, bt_collect. 
    assert (G : forall (l t : btree), (forall x, x ∈ l -> x.1 = h x.2.1) -> (forall x, x ∈ t -> x.1 = h x.2.1) ->
       forall x, x ∈ foldl (fun t kv => bt_insert kv.1 kv.2 t) t l -> x.1 = h x.2.1).
    { induction l as [|[k v] l IH]; intros t Hl Ht x; [apply Ht|]. cbn. apply IH.
      - intros y Hy. apply Hl. now apply elem_of_list_further.
      - intros y Hy. apply bt_insert_elem in Hy as [->|Hy]; [apply Hl, elem_of_list_here|auto]. }
    apply G.
    - intros x Hx. apply elem_of_list_fmap in Hx as (y & -> & _). reflexivity.
    - intros x Hx. now apply elem_of_nil in Hx. }
  pose proof (keys_sorted_NoDup _ (bt_collect_sorted (map (fun kv => (h kv.1, kv)) (order m)))) as ND.
  fold (ordered h order m) in ND. revert K ND. generalize (ordered h order m). intros l.
  induction l as [|x l IH]; cbn; intros K ND; [constructor|].
  apply NoDup_cons in ND as [N ND]. constructor.
  - intros Hx. apply N. apply elem_of_list_fmap in Hx as (y & E & Hy). apply elem_of_list_fmap. exists y. split; [|exact Hy].
    rewrite (K x) by apply elem_of_list_here. rewrite (K y) by now apply elem_of_list_further. now rewrite E.
  - apply IH; [|exact ND]. intros y Hy. apply K. now apply elem_of_list_further.
Qed.
Lemma round_trip e junk : fits e -> distinct_hashes h e ->
  deserialize (serialize h order e ++ junk) = Some e.
Proof.
  intros F D. rewrite deserialize_serialize by exact F. destruct e as [p m]. cbn in *. do 2 f_equal.
  apply map_eq. intros r. apply option_eq. intros k.
  rewrite fold_insert_map by apply ordered_refs_NoDup.
  pose proof (ordered_perm (Envelope p m) D) as P. cbn in P.
  assert (E : (r, k) ∈ map snd (ordered h order m) <-> m !! r = Some k).
  { assert (P' : map snd (ordered h order m) ≡ₚ order m).
    { change (snd <$> ordered h order m ≡ₚ order m). rewrite P. change (map snd (map (fun kv => (h kv.1, kv)) (order m)) ≡ₚ order m).
      rewrite map_map. cbn. now rewrite map_id. }
    rewrite P', (Ho m). apply elem_of_map_to_list. }
  rewrite E, lookup_empty. split; [intros [?|[_ ?]]; [auto|discriminate]|auto].
Qed.
(** Two ancestors with one hash: one of them is lost. *)
Lemma round_trip_collision e junk r1 r2 : fits e ->
  r1 ∈ dom (en_ancestors e) -> r2 ∈ dom (en_ancestors e) -> r1 <> r2 -> h r1 = h r2 ->
  exists e', deserialize (serialize h order e ++ junk) = Some e' /\
    (r1 ∉ dom (en_ancestors e') \/ r2 ∉ dom (en_ancestors e')).
Proof.
  intros F I1 I2 N E. rewrite deserialize_serialize by exact F. eexists; split; [reflexivity|]. cbn.
  destruct (decide (r1 ∈ map (fun e => e.2.1) (ordered h order (en_ancestors e)))) as [M1|M1].
  - destruct (decide (r2 ∈ map (fun e => e.2.1) (ordered h order (en_ancestors e)))) as [M2|M2].
    + exfalso. apply elem_of_list_fmap in M1 as ([h1 [s1 k1]] & -> & M1). apply elem_of_list_fmap in M2 as ([h2 [s2 k2]] & -> & M2).
      cbn in *.
      assert (K : forall x, x ∈ ordered h order (en_ancestors e) -> x.1 = h x.2.1).
      { intros x Hx. unfold ordered, bt_collect in Hx.
        assert (G : forall (l t : btree), (forall x, x ∈ l -> x.1 = h x.2.1) -> (forall x, x ∈ t -> x.1 = h x.2.1) ->
           forall x, x ∈ foldl (fun t kv => bt_insert kv.1 kv.2 t) t l -> x.1 = h x.2.1).
        { induction l as [|[k v] l IH]; intros t Hl Ht y; [apply Ht|]. cbn. apply IH.
          - intros z Hz. apply Hl. now apply elem_of_list_further.
          - intros z Hz. apply bt_insert_elem in Hz as [->|Hz]; [apply Hl, elem_of_list_here|auto]. }
        revert Hx. apply G.
        - intros y Hy. apply elem_of_list_fmap in Hy as (z & -> & _). reflexivity.
        - intros y Hy. now apply elem_of_nil in Hy. }
      pose proof (K _ M1) as K1. pose proof (K _ M2) as K2. cbn in K1, K2.
      pose proof (keys_sorted_NoDup _ (bt_collect_sorted (map (fun kv => (h kv.1, kv)) (order (en_ancestors e))))) as ND.
      fold (ordered h order (en_ancestors e)) in ND.
      assert (Q : (h1, (s1, k1)) = (h2, (s2, k2))).
      { apply elem_of_list_lookup in M1 as [i Hi]. apply elem_of_list_lookup in M2 as [j Hj].
        assert (i = j).
        { eapply NoDup_lookup; [exact ND| |].
          - rewrite list_lookup_fmap, Hi. reflexivity.
          - rewrite list_lookup_fmap, Hj. cbn. congruence. }
        congruence. }
      congruence.
    + right. rewrite not_elem_of_dom. apply eq_None_not_Some. intros [k Hk].
      apply fold_insert_map in Hk; [|apply ordered_refs_NoDup]. destruct Hk as [Hk|[_ Hk]]; [|now rewrite lookup_empty in Hk].
      apply M2. apply elem_of_list_fmap in Hk as (x & Ex & Hx). apply elem_of_list_fmap. exists x. rewrite <- Ex. auto.
  - left. rewrite not_elem_of_dom. apply eq_None_not_Some. intros [k Hk].
    apply fold_insert_map in Hk; [|apply ordered_refs_NoDup]. destruct Hk as [Hk|[_ Hk]]; [|now rewrite lookup_empty in Hk].
    apply M1. apply elem_of_list_fmap in Hk as (x & Ex & Hx). apply elem_of_list_fmap. exists x. rewrite <- Ex. auto.
Qed.
Lemma last_wins e : fits e ->
  exists e', deserialize (serialize h order e) = Some e' /\
    forall r k, en_ancestors e' !! r = Some k <->
      exists l1 l2, order (en_ancestors e) = l1 ++ (r, k) :: l2 /\ forall x, x ∈ l2 -> h x.1 <> h r.
Proof.
  intros F. pose proof (deserialize_serialize e [] F) as D. rewrite app_nil_r in D. eexists. split; [exact D|].
  intros r k. cbn [en_ancestors]. rewrite fold_insert_map by apply ordered_refs_NoDup. rewrite lookup_empty.
  assert (I : forall x, (x, (r, k)) ∈ ordered h order (en_ancestors e) <->
    x = h r /\ exists l1 l2, order (en_ancestors e) = l1 ++ (r, k) :: l2 /\ forall y, y ∈ l2 -> h y.1 <> h r).
  { intros x. unfold ordered. rewrite bt_collect_last. split.
    - intros (l1 & l2 & E & N). apply map_eq_app in E as (m1 & m2 & -> & <- & E).
      destruct m2 as [|y m2]; [discriminate|]. cbn in E. injection E as <- -> <-. split; [reflexivity|].
      exists m1, m2. split; [reflexivity|]. intros y Hy Ey. apply N. rewrite map_map. cbn. apply elem_of_list_fmap. exists y. auto.
    - intros (-> & l1 & l2 & -> & N). exists (map (fun kv => (h kv.1, kv)) l1), (map (fun kv => (h kv.1, kv)) l2).
      split; [now rewrite map_app|]. rewrite map_map. cbn. intros Hx. apply elem_of_list_fmap in Hx as (y & Ey & Hy). now apply (N y). }
  split.
  - intros [H|[_ H]]; [|discriminate]. apply elem_of_list_fmap in H as ([x y] & E & H). cbn in E. subst y. now apply I in H.
  - intros H. left. apply elem_of_list_fmap. exists (h r, (r, k)). split; [reflexivity|]. apply I. auto.
Qed.
End map.
Lemma last_wins_lemma h order e : hash64_ok h -> any_order order -> fits e ->
  exists e', deserialize (serialize h order e) = Some e' /\
    forall r k, en_ancestors e' !! r = Some k <->
      exists l1 l2, order (en_ancestors e) = l1 ++ (r, k) :: l2 /\ forall x, x ∈ l2 -> h x.1 <> h r.
Proof. intros Hh Ho. exact (last_wins h order Hh Ho e). Qed.

(** ** Truncation *)
Lemma read_n_mono n b x r j : read_n n b = Some (x, r) -> read_n n (b ++ j) = Some (x, r ++ j).
Proof.
  unfold read_n. destruct (Nat.ltb_spec (length b) n) as [?|L]; [discriminate|]. intros [= <- <-].
  rewrite app_length. destruct (Nat.ltb_spec (length b + length j) n) as [?|_]; [lia|].
  rewrite take_app_le, drop_app_le by exact L. reflexivity.
Qed.
Lemma read_u64_mono b x r j : read_u64 b = Some (x, r) -> read_u64 (b ++ j) = Some (x, r ++ j).
Proof.
  unfold read_u64. destruct (read_n 8 b) as [[y r']|] eqn:E; [|discriminate]. intros [= <- <-].
  now rewrite (read_n_mono _ _ _ _ j E).
Qed.
Lemma read_vec_mono b x r j : read_vec b = Some (x, r) -> read_vec (b ++ j) = Some (x, r ++ j).
Proof.
  unfold read_vec. destruct (read_u64 b) as [[y r']|] eqn:E; [|discriminate].
  rewrite (read_u64_mono _ _ _ j E). rewrite app_length, Nat2N.inj_add.
  destruct (N.ltb_spec (N.of_nat (length r')) y) as [?|L]; [discriminate|].
  destruct (N.ltb_spec (N.of_nat (length r') + N.of_nat (length j)) y) as [?|_]; [lia|]. apply read_n_mono.
Qed.
Lemma read_entry_mono b x r j : read_entry b = Some (x, r) -> read_entry (b ++ j) = Some (x, r ++ j).
Proof.
  unfold read_entry. destruct (read_u64 b) as [[h r1]|] eqn:E1; [|discriminate]. rewrite (read_u64_mono _ _ _ j E1).
  destruct (read_n REF_LEN r1) as [[x2 r2]|] eqn:E2; [|discriminate]. rewrite (read_n_mono _ _ _ _ j E2).
  destruct (read_n REF_LEN r2) as [[x3 r3]|] eqn:E3; [|discriminate]. rewrite (read_n_mono _ _ _ _ j E3).
  intros [= <- <-]. reflexivity.
Qed.
Lemma read_entries_mono f : forall f' n b l r j, f <= f' ->
  read_entries f n b = Some (l, r) -> read_entries f' n (b ++ j) = Some (l, r ++ j).
Proof.
  induction f as [|f IH]; intros f' n b l r j L; cbn [read_entries].
  - destruct (n =? 0)%N eqn:E; [|discriminate]. intros [= <- <-]. destruct f'; cbn [read_entries]; now rewrite E.
  - destruct f' as [|f']; [lia|]. cbn [read_entries]. destruct (n =? 0)%N; [intros [= <- <-]; reflexivity|].
    destruct (read_entry b) as [[e b']|] eqn:E; [|discriminate]. rewrite (read_entry_mono _ _ _ j E).
    destruct (read_entries f (n - 1) b') as [[l' r']|] eqn:E'; [|discriminate].
    rewrite (IH f' _ _ _ _ j ltac:(lia) E'). intros [= <- <-]. reflexivity.
Qed.
Lemma read_map_mono b x r j : read_map b = Some (x, r) -> read_map (b ++ j) = Some (x, r ++ j).
Proof.
  unfold read_map. destruct (read_u64 b) as [[n b']|] eqn:E; [|discriminate]. rewrite (read_u64_mono _ _ _ j E).
  destruct (read_entries (length b') n b') as [[l r']|] eqn:E'; [|discriminate].
  assert (Lj : length b' <= length (b' ++ j)) by (rewrite app_length; lia).
  rewrite (read_entries_mono _ _ _ _ _ _ j Lj E').
  intros [= <- <-]. reflexivity.
Qed.
Lemma truncated_lemma h order e n : hash64_ok h -> any_order order -> fits e ->
  n < length (serialize h order e) -> deserialize (take n (serialize h order e)) = None.
Proof.
  intros Hh Ho F L. destruct (deserialize (take n (serialize h order e))) as [e'|] eqn:D; [exfalso|reflexivity].
  pose proof F as (_ & Lp & Ls). unfold deserialize in D.
  set (a := serialize h order e) in *. set (j := drop n a).
  assert (Ea : a = take n a ++ j) by (symmetry; apply take_drop).
  destruct (read_vec (take n a)) as [[p b]|] eqn:Ev; [|discriminate].
  destruct (read_map b) as [[m rest]|] eqn:Em; [|discriminate].
  pose proof (read_vec_mono _ _ _ j Ev) as Ev'. rewrite <- Ea in Ev'.
  pose proof (read_map_mono _ _ _ j Em) as Em'.
  unfold a, serialize in Ev'. rewrite read_vec_app in Ev' by exact Lp. injection Ev' as _ Eb.
  rewrite <- Eb in Em'. unfold read_map, write_map in Em'. rewrite read_u64_app in Em'.
  2:{ eapply N.le_lt_trans; [|exact Ls]. pose proof (ordered_length h order Ho (en_ancestors e)) as Q.
      clear - Q. lia. }
  rewrite <- (app_nil_r (concat (map write_entry (ordered h order (en_ancestors e))))) in Em' at 2.
  rewrite read_entries_app in Em'.
  - injection Em' as _ Er. symmetry in Er. apply app_eq_nil in Er as [_ Ej].
    apply (f_equal length) in Ej. unfold j in Ej. rewrite drop_length in Ej. cbn [length] in Ej. clear - L Ej. lia.
  - now apply ordered_entries_ok.
  - apply concat_entries_length.
Qed.

(** ** Every 64-bit hash loses ancestors of some envelope *)
Lemma le_inj n x y : (x < 256 ^ N.of_nat n)%N -> (y < 256 ^ N.of_nat n)%N -> le n x = le n y -> x = y.
Proof. intros Lx Ly E. rewrite <- (un_le_le n x Lx), <- (un_le_le n y Ly). now rewrite E. Qed.
Lemma collide h : hash64_ok h -> exists r1 r2, length r1 = 32 /\ length r2 = 32 /\ r1 <> r2 /\ h r1 = h r2.
Proof.
  intros Hh. remember (N.to_nat (2 ^ 64)) as M eqn:EM.
  assert (EM' : N.of_nat M = (2 ^ 64)%N) by (rewrite EM; apply N2Nat.id).
  set (ref := fun i : nat => le 32 (N.of_nat i)).
  assert (Hlt : forall i, N.to_nat (h (ref i)) < M).
  { intros i. specialize (Hh (ref i)). rewrite <- EM' in Hh. clear EM EM'. lia. }
  assert (HM : forall i, i < S M -> (N.of_nat i < 256 ^ N.of_nat 32)%N).
  { intros i Li. apply N.le_lt_trans with (N.of_nat M); [clear EM EM'; lia|]. rewrite EM'. reflexivity. }
  clear EM EM'.
  assert (Hsub : (fun i => N.to_nat (h (ref i))) <$> seq 0 (S M) ⊆ seq 0 M).
  { intros x Hx. apply elem_of_list_fmap in Hx as (i & -> & _). apply elem_of_seq.
    specialize (Hlt i). lia. }
  destruct (decide (NoDup ((fun i => N.to_nat (h (ref i))) <$> seq 0 (S M)))) as [ND|ND].
  - exfalso. pose proof (submseteq_length _ _ (NoDup_submseteq _ _ ND (fun x Hx => Hsub x Hx))) as Hl.
    rewrite fmap_length, !seq_length in Hl. lia.
  - assert (X : exists i j, i <> j /\ i < S M /\ j < S M /\ h (ref i) = h (ref j)).
    { destruct (decide (Exists (fun i => Exists (fun j => h (ref i) = h (ref j)) (seq 0 i)) (seq 0 (S M)))) as [Y|Y].
      - apply Exists_exists in Y as (i & Hi & Y). apply Exists_exists in Y as (j & Hj & E).
        apply elem_of_seq in Hi, Hj. exists i, j. repeat split; [lia|lia|lia|exact E].
      - exfalso. apply ND. apply NoDup_fmap_2_strong; [|apply NoDup_seq].
        intros i j Hi Hj E. apply N2Nat.inj in E.
        destruct (lt_eq_lt_dec i j) as [[L|?]|L]; [|assumption|]; exfalso; apply Y; apply Exists_exists.
        + exists j. split; [exact Hj|]. apply Exists_exists. exists i. split; [apply elem_of_seq; lia|]. now symmetry.
        + exists i. split; [exact Hi|]. apply Exists_exists. exists j. split; [apply elem_of_seq; lia|exact E]. }
    destruct X as (i & j & N & Li & Lj & E). exists (ref i), (ref j).
    split; [apply le_length|]. split; [apply le_length|]. split; [|exact E].
    intros Er. apply N. apply le_inj in Er; [lia|now apply HM|now apply HM].
Qed.
