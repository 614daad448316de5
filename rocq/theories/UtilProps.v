(** C35 (transactions on the containers), C38 (queues and logs), C39 (content-addressed maps)
    and C40 (zeros of a digest). *)
From Coq Require Import Arith NArith Lia.
From stdpp Require Import base list gmap.
From Verif Require Import UtilModel UtilSpec UtilProofs.

(** ** C38: queues *)
(** Whatever is pushed is popped once or is still there: nothing is lost or duplicated. *)
Theorem C38_nothing_lost {Ev} (os : list (qop Ev)) rs q :
  QClear ∉ os → deque_run [] os = (rs, q) → popped rs ++ q ≡ₚ pushed os.
Proof. exact (deque_conserve os [] rs q). Qed.

(** [pop_latest] takes the oldest event that is in the queue, after any run. *)
Theorem C38_pop_latest_is_oldest {Ev} (os : list (qop Ev)) rs q e q' :
  deque_run [] os = (rs, q) → deque_step q QPopLatest = (REvent (Some e), q') →
  ∀ e', e' ∈ q' → earlier (pushed os) e e'.
Proof. exact (deque_oldest os rs q e q'). Qed.

(** [pop_earliest] takes the newest one. *)
Theorem C38_pop_earliest_is_newest {Ev} (os : list (qop Ev)) rs q e q' :
  deque_run [] os = (rs, q) → deque_step q QPopEarliest = (REvent (Some e), q') →
  ∀ e', e' ∈ q' → earlier (pushed os) e' e.
Proof. exact (deque_newest os rs q e q'). Qed.

(** Nothing is returned only when nothing is there. *)
Theorem C38_pop_none {Ev} (q : list Ev) o q' :
  o = QPopLatest ∨ o = QPopEarliest → deque_step q o = (REvent None, q') ↔ q = [] ∧ q' = [].
Proof. exact (deque_pop_none q o q'). Qed.

(** A consumer that uses [pop_latest] only sees the events exactly in the order they were
    pushed, with any pushes in between. *)
Theorem C38_in_order {Ev} (os : list (qop Ev)) rs q :
  QClear ∉ os → QPopEarliest ∉ os → deque_run [] os = (rs, q) → popped rs ++ q = pushed os.
Proof. exact (deque_fifo os [] rs q). Qed.

(** The names promise the opposite: a queue that got 1 and then 2 gives 1 as the latest and 2
    as the earliest. *)
Theorem C38_names_refuted :
  deque_run [] [QPush 1%N; QPush 2%N; QPopLatest] = ([RUnit; RUnit; REvent (Some 1%N)], [2%N]) ∧
  deque_run [] [QPush 1%N; QPush 2%N; QPopEarliest] = ([RUnit; RUnit; REvent (Some 2%N)], [1%N]).
Proof. split; reflexivity. Qed.

(** ** C38: logs *)
Theorem C38_log_nothing_lost {Ev} (os : list (lop Ev)) rs l :
  LClear ∉ os → log_run [] os = (rs, l) → popped rs ++ l ≡ₚ logged os.
Proof. exact (log_conserve os [] rs l). Qed.

(** A log that is not popped or cleared holds what was logged, in order. *)
Theorem C38_log_in_order {Ev} (os : list (lop Ev)) rs l :
  LClear ∉ os → LPop ∉ os → log_run [] os = (rs, l) → l = logged os.
Proof. exact (log_in_order os [] rs l). Qed.

(** [pop] takes the newest event of a log. *)
Theorem C38_log_pop {Ev} (os : list (lop Ev)) rs l e l' :
  log_run [] os = (rs, l) → log_step l LPop = (REvent (Some e), l') →
  ∀ e', e' ∈ l' → earlier (logged os) e' e.
Proof. exact (log_newest os rs l e l'). Qed.

(** The length is the number of events logged and not popped. *)
Theorem C38_log_len {Ev} (os : list (lop Ev)) rs l :
  LClear ∉ os → log_run [] os = (rs, l) →
  (log_step l LLen).1 = RLen (length (logged os) - length (popped rs)) ∧ length (popped rs) ≤ length (logged os).
Proof. exact (log_len os rs l). Qed.

Example C38_example :
  let os := [QPush 1%N; QPopLatest; QPush 2%N; QPush 3%N; QPopEarliest; QPush 4%N; QPopLatest; QPopLatest; QPopLatest] in
  QClear ∉ os ∧ popped (deque_run [] os).1 = [1; 3; 2; 4]%N ∧ pushed os = [1; 2; 3; 4]%N ∧ (deque_run [] os).2 = [].
Proof.
  cbn zeta. split; [|repeat split]. intros Hf. repeat (apply elem_of_cons in Hf as [Hf|Hf]; [congruence|]). by apply elem_of_nil in Hf.
Qed.

(** ** C39: content-addressed maps *)
(** What is found under a digest has that digest, after any honest operations. *)
Theorem C39_right_value {K V} `{Countable K} (hash : V -> K) (os : list (caop K V)) k v :
  (∀ o, o ∈ os → honest hash o) → ca_get (ca_run hash ∅ os) k = Some v → hash v = k.
Proof. intros Ho. apply (keyed_run hash ∅ os (keyed_empty hash) Ho). Qed.

(** Without collisions a value is found exactly if the last operation that concerned it put it
    in: operations on other values never matter, and none is lost. *)
Theorem C39_history {K V} `{Countable K} `{EqDecision V} (hash : V -> K) (os : list (caop K V)) v :
  Inj (=) (=) hash → (∀ o, o ∈ os → honest hash o) →
  (ca_get (ca_run hash ∅ os) (hash v) = Some v ↔ in_after hash v os) ∧
  (∀ w, ca_get (ca_run hash ∅ os) (hash v) = Some w → w = v).
Proof. intros Hi. exact (ca_history hash os v). Qed.

(** Inserting: found under the returned digest, nothing else changes, a second time changes
    nothing and [insert_checked] says so. *)
Theorem C39_insert {K V} `{Countable K} (hash : V -> K) (m : gmap K V) v :
  let '(k, m') := ca_insert hash v m in
  k = hash v ∧ ca_get m' k = Some v ∧ ca_contains_value hash m' v = true ∧
  (∀ k', k' ≠ k → ca_get m' k' = ca_get m k') ∧
  (ca_insert hash v m').2 = m' ∧
  (ca_insert_checked hash v m).2 = m' ∧
  (ca_insert_checked hash v m).1 = (k, negb (ca_contains_key m k)) ∧
  (ca_insert_checked hash v m').1 = (k, false) ∧
  ca_len m' = ca_len m + (if ca_contains_key m k then 0 else 1).
Proof.
  cbn. unfold ca_get, ca_contains_value, ca_contains_key, ca_insert_checked, ca_len. rewrite lookup_insert.
  repeat split; try done.
  - intros k' Hk. by rewrite lookup_insert_ne.
  - by rewrite insert_insert.
  - cbn. by destruct (m !! hash v).
  - destruct (m !! hash v) eqn:Hm; [rewrite map_size_insert_Some by (by rewrite Hm); lia|rewrite map_size_insert_None by done; lia].
Qed.

(** Removing: not found any more, the removed value is returned, nothing else changes. *)
Theorem C39_remove {K V} `{Countable K} (m : gmap K V) k :
  let '(r, m') := ca_remove_by_hash k m in
  r = ca_get m k ∧ ca_get m' k = None ∧ ∀ k', k' ≠ k → ca_get m' k' = ca_get m k'.
Proof. cbn. unfold ca_get. split; [done|]. split; [apply lookup_delete|]. intros. by rewrite lookup_delete_ne. Qed.

(** Merging keeps every entry of both sides and invents none. *)
Theorem C39_merge {K V} `{Countable K} (a b : gmap K V) k :
  ca_contains_key (ca_merge a b) k = ca_contains_key a k || ca_contains_key b k ∧
  (∀ v, ca_get (ca_merge a b) k = Some v → ca_get a k = Some v ∨ ca_get b k = Some v).
Proof.
  unfold ca_contains_key, ca_get. rewrite ca_merge_lookup. split; [by destruct (a !! k), (b !! k)|].
  intros v. destruct (a !! k); [by left|by right].
Qed.

(** On maps whose entries are under their digests, and without collisions, merging is
    commutative, associative and idempotent. *)
Theorem C39_merge_laws {K V} `{Countable K} (hash : V -> K) (a b c : gmap K V) :
  Inj (=) (=) hash → keyed hash a → keyed hash b →
  ca_merge a b = ca_merge b a ∧ ca_merge a (ca_merge b c) = ca_merge (ca_merge a b) c ∧ ca_merge a a = a.
Proof.
  intros Hi Ha Hb. repeat split; apply map_eq; intros k; rewrite !ca_merge_lookup.
  - destruct (a !! k) as [x|] eqn:Hx, (b !! k) as [y|] eqn:Hy; try done. f_equal. apply (inj hash).
    by rewrite (Ha _ _ Hx), (Hb _ _ Hy).
  - by destruct (a !! k), (b !! k).
  - by destruct (a !! k).
Qed.

(** Saving and loading gives the same map, and what is saved does not depend on the order in
    which the hash map lists its entries. *)
Theorem C39_roundtrip {K V} `{Countable K} (le : K -> K -> bool) (m : gmap K V) order order' :
  total_order le → lists order m → lists order' m →
  ca_deserialize (ca_serialize le order) = m ∧ ca_serialize le order = ca_serialize le order'.
Proof. intros Hle H1 H2. split; [by apply ca_roundtrip_lemma|by eapply ca_serialize_canonical]. Qed.

(** [extend] takes any pairs: a value can be put under a digest that is not its own, and then
    hides the right one. *)
Theorem C39_extend_refuted :
  ¬ ∀ (hash : N -> N) (os : list (caop N N)) k v,
      Inj (=) (=) hash → ca_get (ca_run hash ∅ os) k = Some v → hash v = k.
Proof.
  intros Hc. specialize (Hc (fun x => x) [CaInsert 1%N; CaExtend [(1%N, 2%N)]] 1%N 2%N).
  assert (2%N = 1%N); [|done]. apply Hc; [by intros ? ? ?|reflexivity].
Qed.

(** Loading does not check digests either. *)
Theorem C39_load_refuted :
  ¬ ∀ (hash : N -> N) (stored : list (N * N)) k v,
      Inj (=) (=) hash → ca_get (ca_deserialize stored) k = Some v → hash v = k.
Proof.
  intros Hc. specialize (Hc (fun x => x) [(1%N, 2%N)] 1%N 2%N).
  assert (2%N = 1%N); [|done]. apply Hc; [by intros ? ? ?|reflexivity].
Qed.

(** The order on maps depends on the order in which the hash maps list their keys: one map can
    be smaller than itself. *)
Theorem C39_order_refuted :
  ∃ (m : gmap N N) order order', lists order m ∧ lists order' m ∧
    ca_cmp N.leb order order' = Lt ∧ ca_cmp N.leb order' order = Gt.
Proof.
  exists (<[1%N := 1%N]> (<[2%N := 2%N]> ∅)), [(1, 1); (2, 2)]%N, [(2, 2); (1, 1)]%N.
  assert (lists [(1, 1); (2, 2)]%N (<[1%N := 1%N]> (<[2%N := 2%N]> ∅) : gmap N N)).
  { unfold lists. rewrite map_to_list_insert by done. rewrite map_to_list_insert by done. by rewrite map_to_list_empty. }
  split; [done|]. split; [|done]. unfold lists in *. etrans; [|exact H]. apply perm_swap.
Qed.

Example C39_example :
  let os := [CaInsert 1%N; CaInsert 2%N; CaRemoveValue 1%N; CaMerge {[3%N := 3%N]}; CaExtend [(4%N, 4%N)]; CaInsertChecked 1%N] in
  (∀ o, o ∈ os → honest (fun x : N => x) o) ∧ in_after (fun x : N => x) 1%N os ∧ in_after (fun x : N => x) 3%N os ∧
  ca_get (ca_run (fun x : N => x) ∅ os) 1%N = Some 1%N.
Proof.
  cbn zeta. split; [|repeat split].
  intros o Ho. repeat (apply elem_of_cons in Ho as [->|Ho]); [done|done|done| | |done|by apply elem_of_nil in Ho]; cbn.
  - intros k v Hk. apply lookup_singleton_Some in Hk as [-> ->]. done.
  - intros k v Hk. apply elem_of_list_singleton in Hk. injection Hk as -> ->. done.
Qed.

(** ** C40: zeros of a digest *)
(** The number of zero bytes at the end is right, without overflow. *)
Theorem C40_zero_bytes d :
  is_digest d → ∃ n, trailing_zero_bytes d = Some (N.of_nat n) ∧ ends_with 0%N d n.
Proof.
  intros [Hl _]. destruct (tzb_loop d 0) as (n & Hn & He); [rewrite Hl; lia|]. by exists n.
Qed.

(** For a digest that is not all zeros, [trailing_zeros] never overflows, never reports fewer
    zero bits than there are at the end and is off by at most seven; it is right exactly if the
    last byte that is not zero is ones followed by zeros. *)
Theorem C40_zero_bits_partial d :
  is_digest d → (∃ b, b ∈ d ∧ b ≠ 0%N) →
  ∃ r n zs pre b,
    trailing_zeros_checked d = Some r ∧ trailing_zeros_wrapping d = r ∧
    ends_with false (bits d) n ∧ (N.of_nat n ≤ r < N.of_nat n + 8)%N ∧
    d = pre ++ b :: replicate zs 0%N ∧ b ≠ 0%N ∧
    (r = N.of_nat n ↔ ∃ j, (j < 8)%N ∧ b = (256 - 2 ^ j)%N).
Proof. intros [Hl Hb] Hn. apply (tz_loop d 0); [done|done|rewrite Hl; lia]. Qed.

(** It is wrong in general: a digest that ends with a one bit has seven trailing zeros. *)
Theorem C40_zero_bits_refuted :
  let d := replicate 31 0%N ++ [1%N] in
  is_digest d ∧ ends_with false (bits d) 0 ∧ trailing_zeros_checked d = Some 7%N ∧ trailing_zeros_wrapping d = 7%N.
Proof.
  cbn zeta. split; [|split; [|split; reflexivity]].
  - split; [reflexivity|]. intros b [Hb|Hb]%elem_of_app; [apply elem_of_replicate in Hb as [-> _]; lia|].
    apply elem_of_list_singleton in Hb. subst. lia.
  - exists (bits (replicate 31 0%N ++ [1%N])). split; [reflexivity|]. vm_compute. done.
Qed.

(** On the digest of zeros it overflows: a panic with overflow checks, and 0 instead of 256
    without. *)
Theorem C40_overflow_refuted :
  let d := replicate 32 0%N in
  is_digest d ∧ ends_with false (bits d) 256 ∧ trailing_zeros_checked d = None ∧ trailing_zeros_wrapping d = 0%N.
Proof.
  cbn zeta. split; [|split; [|split; reflexivity]].
  - split; [reflexivity|]. intros b Hb. apply elem_of_replicate in Hb as [-> _]. lia.
  - exists []. split; [|done]. vm_compute. reflexivity.
Qed.

Example C40_example :
  let d := replicate 29 7%N ++ [240; 0; 0]%N in
  is_digest d ∧ trailing_zero_bytes d = Some 2%N ∧ trailing_zeros_checked d = Some 20%N.
Proof.
  cbn zeta. split; [|split; reflexivity]. split; [reflexivity|].
  intros b [Hb|Hb]%elem_of_app; [apply elem_of_replicate in Hb as [-> _]; lia|].
  repeat (apply elem_of_cons in Hb as [->|Hb]; [lia|]). by apply elem_of_nil in Hb.
Qed.

(** ** C35: transactions on the containers *)
(** A body that fails leaves the trunk as it was, whatever it did to the fork. *)
Theorem C35_blocking {T Fk Err} (fork : T -> Fk) (merge : T -> Fk -> T) s (tx : Fk -> Fk * (unit + Err)) :
  (∀ e, (tx (fork s)).2 = inr e → transact_blocking fork merge s tx = (s, inr e)) ∧
  (∀ u, (tx (fork s)).2 = inl u → transact_blocking fork merge s tx = (merge s (tx (fork s)).1, inl tt)).
Proof.
  unfold transact_blocking. destruct (tx (fork s)) as [fk [u|e]]; cbn; split; try done. by intros e' [= ->].
Qed.

(** A transaction that never commits has no effect, however it is interleaved with others and
    with direct changes: the trunk is the same as without it, all along the run. *)
Theorem C35_aborted_invisible {T Fk} (fork : T -> Fk) (merge : T -> Fk -> T) s (es : list (sched T Fk)) t :
  SCommit t ∉ es →
  (sched_run fork merge s es).1 = (sched_run fork merge s (filter (fun e => ¬ of_tx t e) es)).1.
Proof. intros Hn. by apply (sched_isolated fork merge es t s s). Qed.

(** Concurrent transactions on a set: what was there, and what any committed transaction had
    when it committed. Nothing a transaction adds is lost, whatever the interleaving. *)
Theorem C35_sets {A} `{Countable A} (s : gset A) (es : list (sched (gset A) (gset A))) x :
  only_tx es →
  x ∈ (sched_run hs_fork hs_merge (s, ∅) es).1 ↔ x ∈ s ∨ ∃ fk, committed hs_fork hs_merge (s, ∅) es fk ∧ x ∈ fk.
Proof. exact (sched_set s es x). Qed.

(** Concurrent transactions on a map: the trunk's entries, and for other keys the entry of the
    first transaction to commit one. *)
Theorem C35_maps {K V} `{Countable K} (m : gmap K V) (es : list (sched (gmap K V) (gmap K V))) k v :
  only_tx es →
  (sched_run hm_fork hm_merge (m, ∅) es).1 !! k = Some v ↔
    m !! k = Some v ∨
    (m !! k = None ∧ ∃ es1 t es2 fk, es = es1 ++ SCommit t :: es2 ∧
       (sched_run hm_fork hm_merge (m, ∅) es1).2 !! t = Some fk ∧ fk !! k = Some v ∧
       ∀ fk', committed hm_fork hm_merge (m, ∅) es1 fk' → fk' !! k = None).
Proof. exact (sched_map_first m es k v). Qed.

(** So a successful transaction does not have the fork's effect: removals come back (as
    documented) and changes to existing entries are dropped without an error. *)
Theorem C35_fork_effect_refuted :
  transact_blocking (Err:=N) hs_fork hs_merge ({[1%N; 2%N]} : gset N) (fun s => (s ∖ {[1%N]}, inl tt)) = ({[1%N; 2%N]}, inl tt) ∧
  transact_blocking (Err:=N) hm_fork hm_merge ({[1%N := 10%N]} : gmap N N) (fun m => (<[1%N := 20%N]> m, inl tt)) = ({[1%N := 10%N]}, inl tt).
Proof.
  split.
  - unfold transact_blocking, hs_fork, hs_merge. cbn [fst snd]. f_equal. apply (bool_decide_unpack _). vm_compute. exact I.
  - reflexivity.
Qed.

(** The active agent shares its cells with its forks: a failed transaction on it is not undone.
    Here the body stores a prekey pair and then fails. *)
Theorem C35_active_refuted :
  ∃ (h h' : cells (gmap N N) (gset N)) (a : active N) tx,
    active_transact (fun p q => q ∪ p) (fun i j => i ∪ j) h a tx = (h', false) ∧
    active_view h' a ≠ active_view h a.
Proof.
  exists (Cells {[0%N := ∅]} {[1%N := ∅]}), (Cells (alter (fun p => <[7%N := 8%N]> p) 0%N {[0%N := ∅]}) {[1%N := ∅]}), (Active 0%N 1%N []),
    (fun h fk => (Cells (alter (fun p => <[7%N := 8%N]> p) (ac_pairs fk) (pairs_at h)) (individual_at h), fk, false)).
  split; [reflexivity|]. vm_compute. intros He. injection He as He. done.
Qed.

(** In fact nothing the body does to the agent's keys is ever undone, whether it fails or not. *)
Theorem C35_active_shared {Pairs Indiv Ev} extend merge (h : cells Pairs Indiv) (a : active Ev) tx h1 fk :
  tx h (active_fork a) = (h1, fk, false) →
  active_transact extend merge h a tx = (h1, false) ∧
  ac_pairs (active_fork a) = ac_pairs a ∧ ac_individual (active_fork a) = ac_individual a.
Proof. intros He. unfold active_transact. by rewrite He. Qed.

Example C35_example :
  let es := [SFork 1%N; SBody 1%N (fun s => {[42%N]} ∪ s); SFork 2%N; SBody 2%N (fun s => {[50%N]} ∪ s); SAbort 2%N; SFork 3%N;
             SBody 3%N (fun s => {[7%N]} ∪ (s ∖ {[0%N]})); SCommit 3%N; SCommit 1%N] in
  only_tx es ∧ SCommit 2%N ∉ es ∧
  (sched_run (Trunk:=gset N) hs_fork hs_merge ({[0%N]}, ∅) es).1 = {[0%N; 7%N; 42%N]}.
Proof.
  cbn zeta. split; [|split].
  - intros f Hf. repeat (apply elem_of_cons in Hf as [Hf|Hf]; [done|]). by apply elem_of_nil in Hf.
  - intros Hf. repeat (apply elem_of_cons in Hf as [Hf|Hf]; [congruence|]). by apply elem_of_nil in Hf.
  - apply (bool_decide_unpack _). vm_compute. exact I.
Qed.

Print Assumptions C38_nothing_lost. Print Assumptions C38_pop_latest_is_oldest. Print Assumptions C38_pop_earliest_is_newest.
Print Assumptions C38_pop_none. Print Assumptions C38_in_order. Print Assumptions C38_names_refuted.
Print Assumptions C38_log_nothing_lost. Print Assumptions C38_log_in_order. Print Assumptions C38_log_pop. Print Assumptions C38_log_len.
Print Assumptions C39_right_value. Print Assumptions C39_history. Print Assumptions C39_insert. Print Assumptions C39_remove.
Print Assumptions C39_merge. Print Assumptions C39_merge_laws. Print Assumptions C39_roundtrip. Print Assumptions C39_extend_refuted.
Print Assumptions C39_load_refuted. Print Assumptions C39_order_refuted.
Print Assumptions C40_zero_bytes. Print Assumptions C40_zero_bits_partial. Print Assumptions C40_zero_bits_refuted. Print Assumptions C40_overflow_refuted.
Print Assumptions C35_blocking. Print Assumptions C35_aborted_invisible. Print Assumptions C35_sets. Print Assumptions C35_maps.
Print Assumptions C35_fork_effect_refuted. Print Assumptions C35_active_refuted. Print Assumptions C35_active_shared.
