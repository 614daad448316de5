(** Proofs about queues, content-addressed maps, digests and transactions. *)
From Coq Require Import Arith NArith Lia.
From stdpp Require Import base list gmap sorting.
From Verif Require Import UtilModel UtilSpec.

(** ** Queues *)
Lemma pop_back_nil {Ev} : pop_back (Ev:=Ev) [] = (None, []).
Proof. reflexivity. Qed.
Lemma pop_back_snoc {Ev} (q : list Ev) e : pop_back (q ++ [e]) = (Some e, q).
Proof. unfold pop_back. rewrite reverse_snoc. by rewrite reverse_involutive. Qed.
Lemma pop_back_cases {Ev} (q : list Ev) :
  (q = [] ∧ pop_back q = (None, [])) ∨ ∃ q' e, q = q' ++ [e] ∧ pop_back q = (Some e, q').
Proof. destruct q as [|e q] using List.rev_ind; [by left|right]. exists q, e. by rewrite pop_back_snoc. Qed.

Lemma deque_run_app {Ev} (q : list Ev) os1 os2 :
  deque_run q (os1 ++ os2) =
    let '(r1, q1) := deque_run q os1 in let '(r2, q2) := deque_run q1 os2 in (r1 ++ r2, q2).
Proof.
  revert q. induction os1 as [|o os IH]; intros q; cbn.
  - by destruct (deque_run q os2).
  - destruct (deque_step q o) as [r q1]. rewrite IH. destruct (deque_run q1 os) as [rs q2]. by destruct (deque_run q2 os2).
Qed.

Lemma deque_conserve {Ev} (os : list (qop Ev)) q rs q' :
  QClear ∉ os → deque_run q os = (rs, q') → popped rs ++ q' ≡ₚ q ++ pushed os.
Proof.
  revert q rs. induction os as [|o os IH]; intros q rs Hn Hr; cbn in Hr.
  - injection Hr as <- <-. cbn. by rewrite app_nil_r.
  - apply not_elem_of_cons in Hn as [Hn1 Hn2].
    destruct (deque_step q o) as [r q1] eqn:Hs. destruct (deque_run q1 os) as [rs1 q2] eqn:Hr1.
    injection Hr as <- <-. pose proof (IH _ _ Hn2 Hr1) as Hp.
    unfold popped, pushed, logged in *; destruct o; cbn in Hs |- *.
    + injection Hs as <- <-. cbn. rewrite Hp. by rewrite <- app_assoc.
    + destruct q as [|e q]; cbn in Hs; injection Hs as <- <-; cbn; [done|]. by rewrite Hp.
    + destruct (pop_back_cases q) as [[-> Hb]|(q0 & e & -> & Hb)]; rewrite Hb in Hs; injection Hs as <- <-; cbn; [done|].
      rewrite Hp. rewrite <- !app_assoc. cbn. by rewrite Permutation_middle.
    + injection Hs as <- <-. done.
    + done.
Qed.

Lemma deque_sublist {Ev} (os : list (qop Ev)) q rs q' :
  deque_run q os = (rs, q') → sublist q' (q ++ pushed os).
Proof.
  revert q rs. induction os as [|o os IH]; intros q rs Hr; cbn in Hr.
  - injection Hr as <- <-. by rewrite app_nil_r.
  - destruct (deque_step q o) as [r q1] eqn:Hs. destruct (deque_run q1 os) as [rs1 q2] eqn:Hr1.
    injection Hr as <- <-. specialize (IH _ _ Hr1).
    unfold popped, pushed, logged in *; destruct o; cbn in Hs |- *.
    + injection Hs as <- <-. by rewrite <- app_assoc in IH.
    + destruct q as [|e q]; cbn in Hs; injection Hs as <- <-; [done|]. cbn. by apply sublist_cons.
    + destruct (pop_back_cases q) as [[-> Hb]|(q0 & e & -> & Hb)]; rewrite Hb in Hs; injection Hs as <- <-; [done|].
      etrans; [exact IH|]. rewrite <- app_assoc. apply sublist_app; [done|]. apply sublist_inserts_l. done.
    + injection Hs as <- <-. done.
    + injection Hs as <- <-. etrans; [exact IH|]. by apply sublist_inserts_l.
Qed.

Lemma deque_fifo {Ev} (os : list (qop Ev)) q rs q' :
  QClear ∉ os → QPopEarliest ∉ os → deque_run q os = (rs, q') → popped rs ++ q' = q ++ pushed os.
Proof.
  revert q rs. induction os as [|o os IH]; intros q rs Hn He Hr; cbn in Hr.
  - injection Hr as <- <-. cbn. by rewrite app_nil_r.
  - apply not_elem_of_cons in Hn as [Hn1 Hn2]. apply not_elem_of_cons in He as [He1 He2].
    destruct (deque_step q o) as [r q1] eqn:Hs. destruct (deque_run q1 os) as [rs1 q2] eqn:Hr1.
    injection Hr as <- <-. specialize (IH _ _ Hn2 He2 Hr1).
    unfold popped, pushed, logged in *; destruct o; cbn in Hs |- *; try done.
    + injection Hs as <- <-. cbn. rewrite IH. by rewrite <- app_assoc.
    + destruct q as [|e q]; cbn in Hs; injection Hs as <- <-; cbn; [done|]. by rewrite IH.
    + injection Hs as <- <-. done.
Qed.

Lemma earlier_sublist {A} (l l' : list A) x y : sublist l l' → earlier l x y → earlier l' x y.
Proof.
  intros Hs (l1 & l2 & l3 & ->).
  apply sublist_app_l in Hs as (k1 & k2 & -> & _ & Hs).
  apply sublist_cons_l in Hs as (a & b & -> & Hs).
  apply sublist_app_l in Hs as (k3 & k4 & -> & _ & Hs).
  apply sublist_cons_l in Hs as (c & d & -> & _).
  exists (k1 ++ a), (k3 ++ c), d. by rewrite <- !app_assoc.
Qed.

Lemma deque_oldest {Ev} (os : list (qop Ev)) rs q e q' :
  deque_run [] os = (rs, q) → deque_step q QPopLatest = (REvent (Some e), q') →
  ∀ e', e' ∈ q' → earlier (pushed os) e e'.
Proof.
  intros Hr Hs e' He'. apply deque_sublist in Hr. cbn in Hs. destruct q as [|e0 q0]; cbn in Hs; [done|].
  injection Hs as -> ->. apply (earlier_sublist _ _ _ _ Hr). apply elem_of_list_split in He' as (l2 & l3 & ->).
  by exists [], l2, l3.
Qed.
Lemma deque_newest {Ev} (os : list (qop Ev)) rs q e q' :
  deque_run [] os = (rs, q) → deque_step q QPopEarliest = (REvent (Some e), q') →
  ∀ e', e' ∈ q' → earlier (pushed os) e' e.
Proof.
  intros Hr Hs e' He'. apply deque_sublist in Hr. cbn in Hs.
  destruct (pop_back_cases q) as [[-> Hb]|(q0 & e0 & -> & Hb)]; rewrite Hb in Hs; [done|].
  injection Hs as -> ->. apply (earlier_sublist _ _ _ _ Hr). apply elem_of_list_split in He' as (l2 & l3 & ->).
  exists l2, l3, []. by rewrite <- app_assoc.
Qed.
Lemma deque_pop_none {Ev} (q : list Ev) o q' :
  o = QPopLatest ∨ o = QPopEarliest → deque_step q o = (REvent None, q') ↔ q = [] ∧ q' = [].
Proof.
  intros [-> | ->]; cbn.
  - destruct q; cbn; split; [by intros [= <-]|by intros [_ ->]|done|by intros [? _]].
  - destruct (pop_back_cases q) as [[-> Hb]|(q0 & e & -> & Hb)]; rewrite Hb; split.
    + by intros [= <-].
    + by intros [_ ->].
    + done.
    + intros [Hn _]. by destruct q0.
Qed.

(** Logs. *)
Lemma log_conserve {Ev} (os : list (lop Ev)) l rs l' :
  LClear ∉ os → log_run l os = (rs, l') → popped rs ++ l' ≡ₚ l ++ logged os.
Proof.
  revert l rs. induction os as [|o os IH]; intros q rs Hn Hr; cbn in Hr.
  - injection Hr as <- <-. cbn. by rewrite app_nil_r.
  - apply not_elem_of_cons in Hn as [Hn1 Hn2].
    destruct (log_step q o) as [r q1] eqn:Hs. destruct (log_run q1 os) as [rs1 q2] eqn:Hr1.
    injection Hr as <- <-. pose proof (IH _ _ Hn2 Hr1) as Hp.
    unfold popped, pushed, logged in *; destruct o; cbn in Hs |- *.
    + injection Hs as <- <-. cbn. rewrite Hp. by rewrite <- app_assoc.
    + destruct (pop_back_cases q) as [[-> Hb]|(q0 & e & -> & Hb)]; rewrite Hb in Hs; injection Hs as <- <-; cbn; [done|].
      rewrite Hp. rewrite <- !app_assoc. cbn. by rewrite Permutation_middle.
    + injection Hs as <- <-. done.
    + done.
    + injection Hs as <- <-. done.
Qed.
Lemma log_sublist {Ev} (os : list (lop Ev)) q rs q' :
  log_run q os = (rs, q') → sublist q' (q ++ logged os).
Proof.
  revert q rs. induction os as [|o os IH]; intros q rs Hr; cbn in Hr.
  - injection Hr as <- <-. by rewrite app_nil_r.
  - destruct (log_step q o) as [r q1] eqn:Hs. destruct (log_run q1 os) as [rs1 q2] eqn:Hr1.
    injection Hr as <- <-. specialize (IH _ _ Hr1).
    unfold popped, pushed, logged in *; destruct o; cbn in Hs |- *.
    + injection Hs as <- <-. by rewrite <- app_assoc in IH.
    + destruct (pop_back_cases q) as [[-> Hb]|(q0 & e & -> & Hb)]; rewrite Hb in Hs; injection Hs as <- <-; [done|].
      etrans; [exact IH|]. rewrite <- app_assoc. apply sublist_app; [done|]. apply sublist_inserts_l. done.
    + injection Hs as <- <-. done.
    + injection Hs as <- <-. etrans; [exact IH|]. by apply sublist_inserts_l.
    + injection Hs as <- <-. done.
Qed.
Lemma log_in_order {Ev} (os : list (lop Ev)) q rs q' :
  LClear ∉ os → LPop ∉ os → log_run q os = (rs, q') → q' = q ++ logged os.
Proof.
  revert q rs. induction os as [|o os IH]; intros q rs Hn He Hr; cbn in Hr.
  - injection Hr as <- <-. by rewrite app_nil_r.
  - apply not_elem_of_cons in Hn as [Hn1 Hn2]. apply not_elem_of_cons in He as [He1 He2].
    destruct (log_step q o) as [r q1] eqn:Hs. destruct (log_run q1 os) as [rs1 q2] eqn:Hr1.
    injection Hr as <- <-. specialize (IH _ _ Hn2 He2 Hr1).
    unfold popped, pushed, logged in *; destruct o; cbn in Hs |- *; try done.
    + injection Hs as <- <-. by rewrite <- app_assoc in IH.
    + injection Hs as <- <-. done.
    + injection Hs as <- <-. done.
Qed.
Lemma log_newest {Ev} (os : list (lop Ev)) rs q e q' :
  log_run [] os = (rs, q) → log_step q LPop = (REvent (Some e), q') →
  ∀ e', e' ∈ q' → earlier (logged os) e' e.
Proof.
  intros Hr Hs e' He'. apply log_sublist in Hr. cbn in Hs.
  destruct (pop_back_cases q) as [[-> Hb]|(q0 & e0 & -> & Hb)]; rewrite Hb in Hs; [done|].
  injection Hs as -> ->. apply (earlier_sublist _ _ _ _ Hr). apply elem_of_list_split in He' as (l2 & l3 & ->).
  exists l2, l3, []. by rewrite <- app_assoc.
Qed.
Lemma log_len {Ev} (os : list (lop Ev)) rs q :
  LClear ∉ os → log_run [] os = (rs, q) →
  (log_step q LLen).1 = RLen (length (logged os) - length (popped rs)) ∧ length (popped rs) ≤ length (logged os).
Proof.
  intros Hn Hr. apply log_conserve in Hr; [|done]. apply Permutation_length in Hr. rewrite app_length in Hr. cbn in Hr |- *.
  split; [f_equal; lia|lia].
Qed.

(** ** Content-addressed maps *)
Section camap.
Context {K V : Type} `{Countable K} (hash : V -> K).
Implicit Types (m : gmap K V) (k : K) (v : V).

Lemma or_insert_lookup (m other : gmap K V) k :
  map_fold (fun k v acc => match acc !! k with Some _ => acc | None => <[k := v]> acc end) m other !! k =
    match m !! k with Some v => Some v | None => other !! k end.
Proof.
  revert k. apply (map_fold_ind (fun acc other => ∀ k, acc !! k = match m !! k with Some v => Some v | None => other !! k end)).
  - intros k. by destruct (m !! k); rewrite ?lookup_empty.
  - intros i x other' acc Hi IH k.
    destruct (acc !! i) as [y|] eqn:Ha.
    + rewrite IH. destruct (m !! k) eqn:Hm; [done|]. destruct (decide (k = i)) as [->|].
      * rewrite IH, Hm, Hi in Ha. done.
      * by rewrite lookup_insert_ne.
    + destruct (decide (k = i)) as [->|].
      * rewrite lookup_insert. rewrite IH in Ha. destruct (m !! i); [done|]. by rewrite lookup_insert.
      * rewrite !lookup_insert_ne by done. apply IH.
Qed.
Lemma ca_merge_lookup m other k :
  ca_merge m other !! k = match m !! k with Some v => Some v | None => other !! k end.
Proof. apply or_insert_lookup. Qed.

Lemma ca_extend_snoc m kvs k v : ca_extend m (kvs ++ [(k, v)]) = <[k := v]> (ca_extend m kvs).
Proof. unfold ca_extend. by rewrite foldl_app. Qed.
Lemma ca_extend_lookup_ne m kvs k : k ∉ kvs.*1 → ca_extend m kvs !! k = m !! k.
Proof.
  induction kvs as [|[k' v'] kvs IH] using List.rev_ind; intros Hn; [done|].
  rewrite ca_extend_snoc. rewrite fmap_app in Hn. apply not_elem_of_app in Hn as [Hn1 Hn2].
  cbn in Hn2. rewrite lookup_insert_ne by (intros ->; apply Hn2; by constructor). by apply IH.
Qed.
Lemma ca_extend_lookup m kvs k :
  ca_extend m kvs !! k = m !! k ∨ ∃ v, (k, v) ∈ kvs ∧ ca_extend m kvs !! k = Some v.
Proof.
  induction kvs as [|[k' v'] kvs IH] using List.rev_ind; [by left|].
  rewrite ca_extend_snoc. destruct (decide (k' = k)) as [->|].
  - right. exists v'. rewrite lookup_insert. split; [|done]. apply elem_of_app. right. by constructor.
  - rewrite lookup_insert_ne by done. destruct IH as [IH|(v & Hv & IH)]; [by left|].
    right. exists v. split; [|done]. apply elem_of_app. by left.
Qed.

Lemma ca_extend_hit `{!Inj (=) (=) hash} m kvs v :
  (∀ k w, (k, w) ∈ kvs → hash w = k) → (hash v, v) ∈ kvs → ca_extend m kvs !! hash v = Some v.
Proof.
  induction kvs as [|[k' v'] kvs IH] using List.rev_ind; intros Hoo Hin; [by apply elem_of_nil in Hin|].
  rewrite ca_extend_snoc. assert (hash v' = k') as <- by (apply Hoo; apply elem_of_app; right; by constructor).
  destruct (decide (hash v' = hash v)) as [He|Hne].
  - rewrite He, lookup_insert. f_equal. by apply (inj hash).
  - rewrite lookup_insert_ne by done. apply IH; [intros; apply Hoo; apply elem_of_app; by left|].
    apply elem_of_app in Hin as [?|Hin]; [done|]. apply elem_of_list_singleton in Hin. by injection Hin as ? ?.
Qed.

Lemma keyed_step m o : keyed hash m → honest hash o → keyed hash (ca_step hash m o).
Proof.
  intros Hk Ho k v. destruct o; cbn in Ho |- *.
  - destruct (decide (hash v0 = k)) as [<- |]; [rewrite lookup_insert|rewrite lookup_insert_ne by done; apply Hk]. by intros [= ->].
  - destruct (decide (hash v0 = k)) as [<- |]; [rewrite lookup_insert|rewrite lookup_insert_ne by done; apply Hk]. by intros [= ->].
  - rewrite lookup_delete_Some. intros [_ ?]. by apply Hk.
  - rewrite lookup_delete_Some. intros [_ ?]. by apply Hk.
  - rewrite ca_merge_lookup. destruct (m !! k) eqn:Hm; [intros [= <-]; by apply Hk|]. apply Ho.
  - destruct (ca_extend_lookup m kvs k) as [-> |(w & Hw & ->)]; [apply Hk|]. intros [= <-]. by apply Ho.
Qed.
Lemma keyed_run m os : keyed hash m → (∀ o, o ∈ os → honest hash o) → keyed hash (ca_run hash m os).
Proof.
  revert m. induction os as [|o os IH]; intros m Hk Ho; [done|]. cbn. apply IH.
  - apply keyed_step; [done|]. apply Ho. by constructor.
  - intros o' ?. apply Ho. by constructor.
Qed.
Lemma keyed_empty : keyed hash (∅ : gmap K V).
Proof. intros k v. by rewrite lookup_empty. Qed.

Lemma ca_history `{EqDecision V} `{!Inj (=) (=) hash} os v :
  (∀ o, o ∈ os → honest hash o) →
  (ca_get (ca_run hash ∅ os) (hash v) = Some v ↔ in_after hash v os) ∧
  (∀ w, ca_get (ca_run hash ∅ os) (hash v) = Some w → w = v).
Proof.
  intros Ho. split; cycle 1.
  { intros w Hw. apply (inj hash). by apply (keyed_run ∅ os keyed_empty Ho). }
  unfold ca_get, in_after.
  induction os as [|o os IH] using List.rev_ind.
  { cbn. rewrite lookup_empty. split; done. }
  assert (Hos : ∀ o, o ∈ os → honest hash o) by (intros; apply Ho; apply elem_of_app; by left).
  assert (Hoo : honest hash o) by (apply Ho; apply elem_of_app; right; by constructor).
  specialize (IH Hos). pose proof (keyed_run ∅ os keyed_empty Hos) as Hk.
  unfold ca_run in *. rewrite foldl_app. cbn [foldl]. rewrite omap_app. cbn [omap list_omap].
  set (m := foldl (ca_step hash) ∅ os) in *. clearbody m.
  destruct o as [w|w|k|w|m'|kvs]; cbn [effect ca_step ca_insert ca_insert_checked ca_remove_by_value ca_remove_by_hash snd].
  - destruct (decide (w = v)) as [->|Hne].
    + rewrite last_snoc, lookup_insert. done.
    + rewrite app_nil_r, lookup_insert_ne; [done|]. by intros ?%(inj hash).
  - destruct (decide (w = v)) as [->|Hne].
    + rewrite last_snoc, lookup_insert. done.
    + rewrite app_nil_r, lookup_insert_ne; [done|]. by intros ?%(inj hash).
  - destruct (decide (k = hash v)) as [->|Hne].
    + rewrite last_snoc, lookup_delete. done.
    + rewrite app_nil_r, lookup_delete_ne; done.
  - destruct (decide (w = v)) as [->|Hne].
    + rewrite last_snoc, lookup_delete. done.
    + rewrite app_nil_r, lookup_delete_ne; [done|]. by intros ?%(inj hash).
  - rewrite ca_merge_lookup. destruct (m !! hash v) as [w|] eqn:Hm.
    + assert (w = v) as -> by (apply (inj hash); by apply Hk).
      destruct (decide (m' !! hash v = Some v)); [rewrite last_snoc|rewrite app_nil_r]; [done|]. done.
    + destruct (decide (m' !! hash v = Some v)) as [He|He]; [rewrite last_snoc; done|].
      rewrite app_nil_r. rewrite <- IH. split; done.
  - cbn in Hoo. destruct (decide ((hash v, v) ∈ kvs)) as [Hin|Hin].
    + rewrite last_snoc. split; [done|]. intros _.
      destruct (ca_extend_lookup m kvs (hash v)) as [He|(w & Hw & He)]; rewrite He.
      * rewrite <- He. by apply ca_extend_hit.
      * f_equal. apply (inj hash). by apply Hoo.
    + rewrite app_nil_r. rewrite <- IH.
      destruct (ca_extend_lookup m kvs (hash v)) as [->|(w & Hw & He)]; [done|].
      exfalso. apply Hin. assert (w = v) as -> by (apply (inj hash); by apply Hoo). done.
Qed.
End camap.

Section serial.
Context {K V : Type} `{Countable K} (le : K -> K -> bool) (Hle : total_order le).
Implicit Types (t : list (K * V)).

Definition klt (a b : K * V) : Prop := le a.1 b.1 = true ∧ a.1 ≠ b.1.
Instance klt_trans : Transitive klt.
Proof.
  destruct Hle as (Ht & Ha & Htr). intros a b c [H1 H2] [H3 H4]. split; [by eapply Htr|].
  intros He. apply H2. apply Ha; [done|]. by rewrite He.
Qed.

Lemma sorted_insert_elem k v t x :
  x ∈ sorted_insert le k v t → x = (k, v) ∨ x ∈ t.
Proof.
  induction t as [|[k' v'] t IH]; cbn.
  - intros ->%elem_of_list_singleton. by left.
  - destruct (decide (k = k')) as [->|]; [|destruct (le k k')].
    + intros [->|?]%elem_of_cons; [by left|right; by constructor].
    + intros [->|?]%elem_of_cons; [by left|by right].
    + intros [->|?]%elem_of_cons; [right; by constructor|]. destruct IH as [?|?]; [done|by left|right; by constructor].
Qed.

Lemma sorted_insert_sorted k v t : StronglySorted klt t → StronglySorted klt (sorted_insert le k v t).
Proof.
  induction t as [|[k' v'] t IH]; cbn; intros Hs; [repeat constructor|].
  inversion Hs as [|? ? Hs' Hf]; subst.
  destruct (decide (k = k')) as [->|Hne]; [|destruct (le k k') eqn:Hk].
  - constructor; [done|]. eapply Forall_impl; [exact Hf|]. intros x [? ?]. by split.
  - constructor; [done|]. constructor; [by split|]. eapply Forall_impl; [exact Hf|]. intros x Hx.
    eapply (klt_trans _ (k', v')); [|exact Hx]. by split.
  - constructor; [by apply IH|]. apply Forall_forall. intros x Hx%sorted_insert_elem. destruct Hx as [-> |Hx].
    + destruct Hle as (Ht & _). destruct (Ht k k') as [?|?]; [congruence|]. split; [done|]. cbn. congruence.
    + eapply Forall_forall in Hf; done.
Qed.

(** Looking a key up in an association list. *)
Lemma sorted_insert_lookup k v t k' v' :
  StronglySorted klt t →
  (k', v') ∈ sorted_insert le k v t ↔ (k' = k ∧ v' = v) ∨ (k' ≠ k ∧ (k', v') ∈ t).
Proof.
  induction t as [|[k0 v0] t IH]; cbn; intros Hs.
  - rewrite elem_of_list_singleton. split; [intros [= -> ->]; by left|intros [[-> ->]|[_ Hn]]; [done|by apply elem_of_nil in Hn]].
  - inversion Hs as [|? ? Hs' Hf]; subst. specialize (IH Hs').
    assert (Hk0 : ∀ w, (k0, w) ∉ t).
    { intros w Hw. eapply Forall_forall in Hf; [|exact Hw]. by destruct Hf as [_ ?]. }
    destruct (decide (k = k0)) as [->|Hne]; [|destruct (le k k0) eqn:Hk].
    + rewrite !elem_of_cons. split.
      * intros [[= -> ->]|Hin]; [by left|]. right. split; [intros ->; by apply (Hk0 v')|by right].
      * intros [[-> ->]|[Hn [[= -> ->]|Hin]]]; [by left|done|by right].
    + assert (Hkt : ∀ w, (k, w) ∉ (k0, v0) :: t).
      { intros w [[= -> ->]|Hw]%elem_of_cons; [done|]. eapply Forall_forall in Hf; [|exact Hw]. destruct Hf as [Hf ?]. cbn in *.
        destruct Hle as (_ & Ha & _). apply Hne. by apply Ha. }
      rewrite elem_of_cons. split.
      * intros [[= -> ->]|Hin]; [by left|]. right. split; [intros ->; by apply (Hkt v')|done].
      * intros [[-> ->]|[Hn Hin]]; [by left|by right].
    + rewrite elem_of_cons, IH, elem_of_cons. split.
      * intros [[= -> ->]|[[-> ->]|[? ?]]]; [right; split; [done|by left]|by left|right; split; [done|by right]].
      * intros [[-> ->]|[Hn [[= -> ->]|Hin]]]; [right; by left|by left|right; by right].
Qed.

Lemma sorted_collect_spec (l : list (K * V)) :
  NoDup l.*1 → StronglySorted klt (sorted_collect le l) ∧ ∀ x, x ∈ sorted_collect le l ↔ x ∈ l.
Proof.
  induction l as [|[k v] l IH] using List.rev_ind; intros Hd.
  - split; [constructor|done].
  - rewrite fmap_app in Hd. apply NoDup_app in Hd as (Hd1 & Hd2 & _). specialize (IH Hd1) as [IH1 IH2].
    unfold sorted_collect in *. rewrite foldl_app. cbn [foldl fst snd].
    split; [by apply sorted_insert_sorted|]. intros [k' v']. rewrite sorted_insert_lookup by done. rewrite IH2, elem_of_app, elem_of_list_singleton.
    split.
    + intros [[-> ->]|[? ?]]; [by right|by left].
    + intros [Hin|[= -> ->]]; [|by left]. right. split; [|done]. intros ->. apply (Hd2 k); [|cbn; by constructor].
      apply elem_of_list_fmap. by exists (k, v').
Qed.

Lemma klt_strict_sorted_unique (l1 l2 : list (K * V)) :
  StronglySorted klt l1 → StronglySorted klt l2 → (∀ x, x ∈ l1 ↔ x ∈ l2) → l1 = l2.
Proof.
  assert (Hirr : ∀ x y : K * V, klt x y → klt y x → False).
  { intros x y [H1 H2] [H3 H4]. apply H2. destruct Hle as (_ & Ha & _). by apply Ha. }
  revert l2. induction l1 as [|x l1 IH]; intros [|y l2] H1 H2 He.
  - done.
  - exfalso. eapply elem_of_nil. apply He. by constructor.
  - exfalso. eapply elem_of_nil. apply He. by constructor.
  - inversion H1 as [|? ? H1' F1]; subst. inversion H2 as [|? ? H2' F2]; subst.
    rewrite Forall_forall in F1, F2.
    assert (x = y) as ->.
    { pose proof (proj1 (He x) ltac:(by constructor)) as [->|Hx]%elem_of_cons; [done|].
      pose proof (proj2 (He y) ltac:(by constructor)) as [->|Hy]%elem_of_cons; [done|].
      exfalso. apply (Hirr x y); [by apply F1|by apply F2]. }
    f_equal. apply IH; try done. intros z. split; intros Hz.
    + pose proof (proj1 (He z) ltac:(by constructor)) as [->|?]%elem_of_cons; [|done]. exfalso.
      apply (Hirr y y); by apply F1.
    + pose proof (proj2 (He z) ltac:(by constructor)) as [->|?]%elem_of_cons; [|done]. exfalso.
      apply (Hirr y y); by apply F2.
Qed.

Lemma lists_nodup (order : list (K * V)) m : lists order m → NoDup order.*1.
Proof. intros Hl. rewrite Hl. apply NoDup_fst_map_to_list. Qed.

Lemma ca_serialize_canonical (order1 order2 : list (K * V)) m :
  lists order1 m → lists order2 m → ca_serialize le order1 = ca_serialize le order2.
Proof.
  intros H1 H2. pose proof (lists_nodup _ _ H1) as N1. pose proof (lists_nodup _ _ H2) as N2.
  destruct (sorted_collect_spec _ N1) as [S1 E1]. destruct (sorted_collect_spec _ N2) as [S2 E2].
  apply klt_strict_sorted_unique; [done|done|]. intros x. unfold ca_serialize. rewrite E1, E2. by rewrite H1, H2.
Qed.

Lemma klt_sorted_nodup (l : list (K * V)) : StronglySorted klt l → NoDup l.*1.
Proof.
  induction l as [|x l IH]; intros Hs; cbn; [constructor|]. inversion Hs as [|? ? Hs' Hf]; subst. constructor; [|by apply IH].
  intros (y & Hy & Hin)%elem_of_list_fmap. eapply Forall_forall in Hf; [|exact Hin]. by destruct Hf as [_ Hn].
Qed.

Lemma ca_extend_nodup (l : list (K * V)) m : NoDup l.*1 → ∀ k v, ca_extend m l !! k = Some v ↔ (k, v) ∈ l ∨ (k ∉ l.*1 ∧ m !! k = Some v).
Proof.
  induction l as [|[k0 v0] l IH] using List.rev_ind; intros Hd k v.
  - cbn. split; [intros ?; right; split; [apply not_elem_of_nil|done]|intros [Hn|[_ ?]]; [by apply elem_of_nil in Hn|done]].
  - rewrite fmap_app in Hd. apply NoDup_app in Hd as (Hd1 & Hd2 & _). rewrite ca_extend_snoc, elem_of_app, elem_of_list_singleton.
    rewrite fmap_app, not_elem_of_app. cbn. rewrite not_elem_of_cons.
    destruct (decide (k0 = k)) as [->|Hne].
    + rewrite lookup_insert. split; [intros [= ->]; left; by right|].
      intros [[Hin|[= ->]]|[[_ [? _]] _]]; [|done|done]. exfalso. apply (Hd2 k); [|cbn; by constructor].
      apply elem_of_list_fmap. by exists (k, v).
    + rewrite lookup_insert_ne by done. rewrite IH by done. split.
      * intros [?|[? ?]]; [left; by left|]. right. split; [|done]. split; [done|]. split; [congruence|apply not_elem_of_nil].
      * intros [[?|[= ? ?]]|[[? _] ?]]; [by left|congruence|by right].
Qed.

Lemma ca_roundtrip_lemma (order : list (K * V)) m : lists order m → ca_deserialize (ca_serialize le order) = m.
Proof.
  intros Hl. pose proof (lists_nodup _ _ Hl) as N1. destruct (sorted_collect_spec _ N1) as [S1 E1].
  apply map_eq. intros k. unfold ca_deserialize.
  assert (Hx : ∀ v, ca_extend ∅ (ca_serialize le order) !! k = Some v ↔ m !! k = Some v).
  { intros v. rewrite ca_extend_nodup by (by apply klt_sorted_nodup). rewrite lookup_empty.
    unfold ca_serialize. assert (Hin : (k, v) ∈ sorted_collect le order ↔ m !! k = Some v).
    { rewrite E1, <- elem_of_map_to_list. by rewrite Hl. }
    rewrite Hin. split; [intros [?|[_ ?]]; done|by left]. }
  destruct (m !! k) as [v|] eqn:Hm; [by apply Hx|].
  destruct (ca_extend ∅ (ca_serialize le order) !! k) as [v|] eqn:He; [|done]. by destruct (Hx v) as [Hx' _]; specialize (Hx' eq_refl).
Qed.
End serial.

(** ** Digests *)
Lemma ends_with_cons_nil {A} (z : A) (l : list A) n x :
  x ≠ z → ends_with z (l ++ [x]) n ↔ n = 0.
Proof.
  intros Hx. split.
  - intros (pre & He & Hl). destruct n as [|n]; [done|]. rewrite replicate_S_end, app_assoc in He. apply app_inj_2 in He as [_ He]; [|done].
    injection He as ->. done.
  - intros ->. exists (l ++ [x]). cbn. rewrite app_nil_r. split; [done|]. rewrite last_snoc. congruence.
Qed.
Lemma ends_with_snoc {A} (z : A) (l : list A) n : ends_with z (l ++ [z]) (S n) ↔ ends_with z l n.
Proof.
  split; intros (pre & He & Hl); exists pre; (split; [|done]).
  - rewrite replicate_S_end, app_assoc in He. by apply app_inj_2 in He as [He _].
  - by rewrite replicate_S_end, app_assoc, He.
Qed.
Lemma ends_with_unique {A} (z : A) (l : list A) n n' : ends_with z l n → ends_with z l n' → n = n'.
Proof.
  revert n n'. induction l as [|x l IH] using List.rev_ind; intros n n' H1 H2.
  - destruct H1 as (p1 & E1 & L1). destruct H2 as (p2 & E2 & L2).
    symmetry in E1, E2. apply app_nil in E1 as [_ E1]. apply app_nil in E2 as [_ E2].
    apply (f_equal length) in E1, E2. rewrite replicate_length in E1, E2. cbn in *. congruence.
  - destruct n as [|n].
    + destruct H1 as (p1 & E1 & L1). cbn in E1. rewrite app_nil_r in E1. subst p1. rewrite last_snoc in L1.
      symmetry. eapply ends_with_cons_nil; [|exact H2]. congruence.
    + destruct n' as [|n'].
      * destruct H2 as (p1 & E1 & L1). cbn in E1. rewrite app_nil_r in E1. subst p1. rewrite last_snoc in L1.
        eapply ends_with_cons_nil; [|exact H1]. congruence.
      * assert (x = z) as ->.
        { destruct H1 as (p1 & E1 & L1). rewrite replicate_S_end, app_assoc in E1. apply app_inj_2 in E1 as [_ E1]; [|done]. by injection E1. }
        f_equal. apply IH; by apply ends_with_snoc.
Qed.

Lemma tzb_loop (d : list N) c :
  (c + N.of_nat (length d) < 256)%N →
  ∃ n, trailing_zero_bytes_loop c (reverse d) = Some (c + N.of_nat n)%N ∧ ends_with 0%N d n.
Proof.
  revert c. induction d as [|b d IH] using List.rev_ind; intros c Hc.
  - exists 0. cbn. rewrite N.add_0_r. split; [done|]. by exists [].
  - rewrite app_length in Hc. cbn [length] in Hc. rewrite reverse_snoc. cbn [trailing_zero_bytes_loop].
    destruct (N.eqb_spec b 0) as [->|Hb].
    + unfold u8_add_checked. destruct (N.ltb_spec (c + 1) 256); [|lia].
      destruct (IH (c + 1)%N) as (n & Hn & He); [lia|]. exists (S n). rewrite Hn. split; [f_equal; lia|]. by apply ends_with_snoc.
    + exists 0. split; [f_equal; lia|]. by apply ends_with_cons_nil.
Qed.

Definition byte_list : list N := map N.of_nat (seq 0 256).
Lemma byte_in b : (b < 256)%N → b ∈ byte_list.
Proof.
  intros Hb. apply elem_of_list_fmap. exists (N.to_nat b). split; [lia|]. apply elem_of_seq. lia.
Qed.

(** The number of consecutive zero bits at the end of a byte. *)
Fixpoint tz (bs : list bool) : nat := match bs with false :: bs => S (tz bs) | _ => 0 end.
Definition low_bits (b : N) : list bool := map (N.testbit b) [0; 1; 2; 3; 4; 5; 6; 7]%N.
Definition byte_ok (b : N) : bool :=
  (N.of_nat (tz (low_bits b)) <=? count_zeros b)%N && (count_zeros b <=? 8)%N &&
  Bool.eqb (count_zeros b =? 8)%N (b =? 0)%N &&
  Bool.eqb (count_zeros b =? N.of_nat (tz (low_bits b)))%N
    ((b =? 0)%N || existsb (fun j => (b =? 256 - 2 ^ j)%N) [0; 1; 2; 3; 4; 5; 6; 7]%N).
Lemma bytes_ok : forallb byte_ok byte_list = true.
Proof. vm_compute. reflexivity. Qed.
Lemma byte_facts b : (b < 256)%N →
  (N.of_nat (tz (low_bits b)) ≤ count_zeros b ≤ 8)%N ∧ (count_zeros b = 8%N ↔ b = 0%N) ∧
  (b ≠ 0%N → count_zeros b = N.of_nat (tz (low_bits b)) ↔ ∃ j, (j < 8)%N ∧ b = (256 - 2 ^ j)%N).
Proof.
  intros Hb. pose proof bytes_ok as Ho. rewrite forallb_forall in Ho. specialize (Ho b). rewrite <- elem_of_list_In in Ho.
  specialize (Ho (byte_in b Hb)). unfold byte_ok in Ho.
  rewrite !andb_true_iff, !N.leb_le, !Bool.eqb_true_iff in Ho. destruct Ho as [[[H1 H2] H3] H4].
  split; [done|]. split.
  - rewrite <- !N.eqb_eq. by rewrite H3.
  - intros Hn. rewrite <- N.eqb_eq, H4. apply N.eqb_neq in Hn. rewrite Hn. cbn [orb]. rewrite existsb_exists. split.
    + intros (j & Hj & He). apply N.eqb_eq in He. exists j. split; [|done]. cbn in Hj. lia.
    + intros (j & Hj & He). exists j. split; [|by apply N.eqb_eq].
      assert (j = 0 ∨ j = 1 ∨ j = 2 ∨ j = 3 ∨ j = 4 ∨ j = 5 ∨ j = 6 ∨ j = 7)%N as Hc by lia.
      cbn. repeat (destruct Hc as [->|Hc]; [auto 10|]). subst. auto 10.
Qed.

Lemma ends_with_app_tz (l : list bool) (bs : list bool) :
  tz bs < length bs → ends_with false (l ++ reverse bs) (tz bs).
Proof.
  induction bs as [|b bs IH] in l |- *; cbn [tz length]; [lia|]. intros Ht. rewrite reverse_cons, app_assoc.
  destruct b.
  - by apply ends_with_cons_nil.
  - apply ends_with_snoc. apply IH. lia.
Qed.
Lemma bits_snoc d b : bits (d ++ [b]) = bits d ++ reverse (low_bits b).
Proof. unfold bits. rewrite map_app, concat_app. cbn [map concat]. rewrite app_nil_r. reflexivity. Qed.
Lemma tz_length (bs : list bool) : tz bs ≤ length bs.
Proof. induction bs as [|[] bs IH]; cbn; lia. Qed.
Lemma tz_full (bs : list bool) : tz bs = length bs → bs = replicate (length bs) false.
Proof. induction bs as [|[] bs IH]; cbn; [done|done|]. intros [= He]. f_equal. by apply IH. Qed.
Lemma low_bits_zero b : (b < 256)%N → tz (low_bits b) = 8 → b = 0%N.
Proof.
  intros Hb He. apply byte_facts in Hb as (H1 & H2 & _). apply H2. rewrite He in H1. lia.
Qed.
Lemma ends_with_replicate (l : list bool) n k : ends_with false l n → ends_with false (l ++ replicate k false) (n + k).
Proof.
  induction k as [|k IH]; [rewrite app_nil_r, Nat.add_0_r; done|]. intros Hn. rewrite replicate_S_end, app_assoc.
  replace (n + S k) with (S (n + k)) by lia. apply ends_with_snoc. by apply IH.
Qed.

Lemma tz_loop (d : list N) c :
  (∀ b, b ∈ d → (b < 256)%N) → (∃ b, b ∈ d ∧ b ≠ 0%N) → (c + 8 * N.of_nat (length d) ≤ 256)%N →
  ∃ r n zs pre b,
    trailing_zeros_checked_loop c (reverse d) = Some (c + r)%N ∧
    trailing_zeros_wrapping_loop c (reverse d) = (c + r)%N ∧
    ends_with false (bits d) n ∧ (N.of_nat n ≤ r < N.of_nat n + 8)%N ∧
    d = pre ++ b :: replicate zs 0%N ∧ b ≠ 0%N ∧
    (r = N.of_nat n ↔ ∃ j, (j < 8)%N ∧ b = (256 - 2 ^ j)%N).
Proof.
  revert c. induction d as [|b d IH] using List.rev_ind; intros c Hb Hn Hc.
  - destruct Hn as (b & Hb' & _). by apply elem_of_nil in Hb'.
  - rewrite app_length in Hc. cbn [length] in Hc. rewrite reverse_snoc.
    cbn [trailing_zeros_checked_loop trailing_zeros_wrapping_loop].
    assert (Hb' : (b < 256)%N) by (apply Hb; apply elem_of_app; right; by constructor).
    pose proof (byte_facts b Hb') as (Hz1 & Hz2 & Hz3).
    destruct (N.eqb_spec (count_zeros b) 8) as [H8|H8].
    + pose proof (proj1 Hz2 H8) as ->. rewrite H8.
      assert (Hd : ∃ b, b ∈ d ∧ b ≠ 0%N).
      { destruct Hn as (b & [?|Hx]%elem_of_app & Hne); [by exists b|]. by apply elem_of_list_singleton in Hx. }
      assert (length d > 0).
      { destruct Hd as (b & Hx & _). destruct d; [by apply elem_of_nil in Hx|cbn; lia]. }
      unfold u8_add_checked, u8_add_wrapping. destruct (N.ltb_spec (c + 8) 256); [|lia].
      rewrite (N.mod_small (c + 8) 256) by lia.
      destruct (IH (c + 8)%N) as (r & n & zs & pre & b & E1 & E2 & E3 & E4 & E5 & E6 & E7); [|done|lia|].
      { intros x Hx. apply Hb. apply elem_of_app. by left. }
      exists (8 + r)%N, (n + 8), (S zs), pre, b. rewrite E1, E2. split; [f_equal; lia|]. split; [lia|]. split.
      { rewrite bits_snoc. change (reverse (low_bits 0)) with (replicate 8 false). by apply ends_with_replicate. }
      split; [lia|]. split; [rewrite E5, <- app_assoc, replicate_S_end; done|]. split; [done|].
      rewrite <- E7. lia.
    + assert (Hb0 : b ≠ 0%N) by (intros ->; by apply H8, Hz2).
      assert (Hcz : (count_zeros b < 8)%N) by lia.
      unfold u8_add_checked, u8_add_wrapping. destruct (N.ltb_spec (c + count_zeros b) 256); [|lia].
      rewrite N.mod_small by lia.
      exists (count_zeros b), (tz (low_bits b)), 0, d, b. split; [done|]. split; [done|]. split.
      { rewrite bits_snoc. apply ends_with_app_tz. change (length (low_bits b)) with 8. lia. }
      split; [lia|]. split; [done|]. split; [done|]. by apply Hz3.
Qed.

(** ** Transactions *)
Section transact.
Context {T Fk : Type} (fork : T -> Fk) (merge : T -> Fk -> T).

Lemma sched_isolated (es : list (sched T Fk)) t s s' :
  SCommit t ∉ es → s.1 = s'.1 → (∀ u, u ≠ t → s.2 !! u = s'.2 !! u) →
  let r := sched_run fork merge s es in
  let r' := sched_run fork merge s' (filter (fun e => ¬ of_tx t e) es) in
  r.1 = r'.1 ∧ ∀ u, u ≠ t → r.2 !! u = r'.2 !! u.
Proof.
  revert s s'. induction es as [|e es IH]; intros s s' Hn H1 H2; [done|].
  apply not_elem_of_cons in Hn as [Hn1 Hn2]. cbn zeta. rewrite filter_cons.
  destruct (decide (¬ of_tx t e)) as [Hd|Hd].
  - cbn [sched_run foldl]. unfold sched_run in IH. apply IH; [done| |].
    + destruct e; cbn in Hd |- *; try done.
      * rewrite <- H2 by done. rewrite <- H1. by destruct (s.2 !! t0).
      * by rewrite H1.
    + intros u Hu. destruct e; cbn in Hd |- *.
      * rewrite H1. destruct (decide (t0 = u)) as [->|]; [by rewrite !lookup_insert|]. rewrite !lookup_insert_ne by done. by apply H2.
      * destruct (decide (t0 = u)) as [->|]; [by rewrite !lookup_alter, H2|]. rewrite !lookup_alter_ne by done. by apply H2.
      * rewrite <- (H2 t0) by done. destruct (s.2 !! t0); [|by apply H2]. cbn.
        destruct (decide (t0 = u)) as [->|]; [by rewrite !lookup_delete|]. rewrite !lookup_delete_ne by done. by apply H2.
      * destruct (decide (t0 = u)) as [->|]; [by rewrite !lookup_delete|]. rewrite !lookup_delete_ne by done. by apply H2.
      * by apply H2.
  - cbn [sched_run foldl]. unfold sched_run in IH. apply IH; [done| |].
    + destruct e; cbn in Hd |- *; try done.
      * exfalso. apply Hn1. f_equal. destruct (decide (t0 = t)); [done|]. tauto.
      * exfalso. tauto.
    + intros u Hu. destruct e; cbn in Hd |- *.
      * assert (t0 = t) as -> by (destruct (decide (t0 = t)); [done|tauto]). rewrite lookup_insert_ne by done. by apply H2.
      * assert (t0 = t) as -> by (destruct (decide (t0 = t)); [done|tauto]). rewrite lookup_alter_ne by done. by apply H2.
      * assert (t0 = t) as -> by (destruct (decide (t0 = t)); [done|tauto]). by exfalso.
      * assert (t0 = t) as -> by (destruct (decide (t0 = t)); [done|tauto]). rewrite lookup_delete_ne by done. by apply H2.
      * exfalso. tauto.
Qed.

Lemma committed_snoc s es e fk :
  committed fork merge s (es ++ [e]) fk ↔
    committed fork merge s es fk ∨ ∃ t, e = SCommit t ∧ (sched_run fork merge s es).2 !! t = Some fk.
Proof.
  split.
  - intros (es1 & t & es2 & He & Hl). destruct es2 as [|e' es2] using List.rev_ind.
    + apply app_inj_2 in He as [-> He]; [|done]. injection He as ->. right. by exists t.
    + rewrite app_comm_cons, app_assoc in He. apply app_inj_2 in He as [-> He]; [|done]. left. by exists es1, t, es2.
  - intros [(es1 & t & es2 & -> & Hl)|(t & -> & Hl)].
    + exists es1, t, (es2 ++ [e]). by rewrite <- app_assoc.
    + by exists es, t, [].
Qed.
End transact.

Lemma sched_set {A} `{Countable A} (s : gset A) (es : list (sched (gset A) (gset A))) x :
  only_tx es →
  x ∈ (sched_run hs_fork hs_merge (s, ∅) es).1 ↔ x ∈ s ∨ ∃ fk, committed hs_fork hs_merge (s, ∅) es fk ∧ x ∈ fk.
Proof.
  induction es as [|e es IH] using List.rev_ind; intros Ho.
  - cbn. split; [by left|]. intros [?|(fk & (es1 & t & es2 & He & _) & _)]; [done|]. by destruct es1.
  - assert (Ho' : only_tx es) by (intros f Hf; apply (Ho f), elem_of_app; by left). specialize (IH Ho').
    unfold sched_run in *. rewrite foldl_app. cbn [foldl].
    setoid_rewrite committed_snoc. unfold sched_run.
    set (r := foldl (sched_step hs_fork hs_merge) (s, ∅) es) in *. clearbody r.
    destruct e as [t|t f|t|t|f]; cbn [sched_step].
    + rewrite IH. split; [intros [?|(fk & ? & ?)]; [by left|right; exists fk; split; [by left|done]]|].
      intros [?|(fk & [?|(t' & ? & _)] & ?)]; [by left|right; by exists fk|done].
    + cbn [fst]. rewrite IH. split; [intros [?|(fk & ? & ?)]; [by left|right; exists fk; split; [by left|done]]|].
      intros [?|(fk & [?|(t' & ? & _)] & ?)]; [by left|right; by exists fk|done].
    + destruct (r.2 !! t) as [fk|] eqn:Hr.
      * cbn [fst]. unfold hs_merge at 1. rewrite elem_of_union, IH. split.
        -- intros [[?|(fk' & ? & ?)]|?]; [by left|right; exists fk'; split; [by left|done]|].
           right. exists fk. split; [|done]. right. by exists t.
        -- intros [?|(fk' & [?|(t' & [= <-] & Hr')] & ?)]; [left; by left|left; right; by exists fk'|right].
           rewrite Hr in Hr'. injection Hr' as <-. done.
      * rewrite IH. split; [intros [?|(fk & ? & ?)]; [by left|right; exists fk; split; [by left|done]]|].
        intros [?|(fk & [?|(t' & [= <-] & Hr')] & ?)]; [by left|right; by exists fk|by rewrite Hr in Hr'].
    + cbn [fst]. rewrite IH. split; [intros [?|(fk & ? & ?)]; [by left|right; exists fk; split; [by left|done]]|].
      intros [?|(fk & [?|(t' & ? & _)] & ?)]; [by left|right; by exists fk|done].
    + exfalso. apply (Ho f), elem_of_app. right. by constructor.
Qed.

Lemma hm_merge_lookup {K V} `{Countable K} (m fk : gmap K V) k :
  hm_merge m fk !! k = match m !! k with Some v => Some v | None => fk !! k end.
Proof. apply or_insert_lookup. Qed.

Lemma sched_map_first {K V} `{Countable K} (m : gmap K V) (es : list (sched (gmap K V) (gmap K V))) k v :
  only_tx es →
  (sched_run hm_fork hm_merge (m, ∅) es).1 !! k = Some v ↔
    m !! k = Some v ∨
    (m !! k = None ∧ ∃ es1 t es2 fk, es = es1 ++ SCommit t :: es2 ∧
       (sched_run hm_fork hm_merge (m, ∅) es1).2 !! t = Some fk ∧ fk !! k = Some v ∧
       ∀ fk', committed hm_fork hm_merge (m, ∅) es1 fk' → fk' !! k = None).
Proof.
  intros Ho.
  assert (Hnone : ∀ es : list (sched (gmap K V) (gmap K V)), only_tx es →
    (sched_run hm_fork hm_merge (m, ∅) es).1 !! k = None ↔
      m !! k = None ∧ ∀ fk', committed hm_fork hm_merge (m, ∅) es fk' → fk' !! k = None).
  { clear. induction es as [|e es IH] using List.rev_ind; intros Ho.
    - cbn. split; [|by intros [? _]]. intros ?. split; [done|]. intros fk (es1 & ? & ? & He & _). by destruct es1.
    - assert (Ho' : only_tx es) by (intros f Hf; apply (Ho f), elem_of_app; by left). specialize (IH Ho').
      setoid_rewrite committed_snoc. unfold sched_run in *. rewrite foldl_app. cbn [foldl].
      set (r := foldl (sched_step hm_fork hm_merge) (m, ∅) es) in *. clearbody r.
      destruct e as [t|t f|t|t|f]; cbn [sched_step fst].
      + rewrite IH. split; (intros [? Hc]; split; [done|]); [intros fk [?|(? & ? & _)]; [by apply Hc|done]|intros fk ?; apply Hc; by left].
      + rewrite IH. split; (intros [? Hc]; split; [done|]); [intros fk [?|(? & ? & _)]; [by apply Hc|done]|intros fk ?; apply Hc; by left].
      + destruct (r.2 !! t) as [fk|] eqn:Hr; cbn [fst].
        * rewrite hm_merge_lookup. destruct (r.1 !! k) as [w|] eqn:Hrk.
          -- split; [done|]. intros [? Hc]. assert (Some w = None) by (apply IH; split; [done|]; intros; apply Hc; by left). done.
          -- destruct (proj1 IH eq_refl) as [Hm Hc]. split.
             ++ intros Hf. split; [done|]. intros fk' [?|(t' & [= <-] & Hr')]; [by apply Hc|]. rewrite Hr in Hr'. by injection Hr' as <-.
             ++ intros [_ Hx]. apply Hx. right. by exists t.
        * rewrite IH. split; (intros [? Hc]; split; [done|]).
          -- intros fk [?|(t' & [= <-] & Hr')]; [by apply Hc|by rewrite Hr in Hr'].
          -- intros fk ?; apply Hc; by left.
      + rewrite IH. split; (intros [? Hc]; split; [done|]); [intros fk [?|(? & ? & _)]; [by apply Hc|done]|intros fk ?; apply Hc; by left].
      + exfalso. apply (Ho f), elem_of_app. right. by constructor. }
  induction es as [|e es IH] using List.rev_ind.
  - cbn. split; [by left|]. intros [?|(_ & es1 & ? & ? & ? & He & _)]; [done|]. by destruct es1.
  - assert (Ho' : only_tx es) by (intros f Hf; apply (Ho f), elem_of_app; by left). specialize (IH Ho').
    specialize (Hnone es Ho').
    assert (Hext : (∃ es1 t es2 fk, es = es1 ++ SCommit t :: es2 ∧
       (sched_run hm_fork hm_merge (m, ∅) es1).2 !! t = Some fk ∧ fk !! k = Some v ∧
       ∀ fk', committed hm_fork hm_merge (m, ∅) es1 fk' → fk' !! k = None) →
      ∃ es1 t es2 fk, es ++ [e] = es1 ++ SCommit t :: es2 ∧
       (sched_run hm_fork hm_merge (m, ∅) es1).2 !! t = Some fk ∧ fk !! k = Some v ∧
       ∀ fk', committed hm_fork hm_merge (m, ∅) es1 fk' → fk' !! k = None).
    { intros (es1 & t & es2 & fk & -> & ? & ? & ?). exists es1, t, (es2 ++ [e]), fk. by rewrite <- app_assoc. }
    assert (Hext2 : (∃ es1 t es2 fk, es ++ [e] = es1 ++ SCommit t :: es2 ∧
       (sched_run hm_fork hm_merge (m, ∅) es1).2 !! t = Some fk ∧ fk !! k = Some v ∧
       ∀ fk', committed hm_fork hm_merge (m, ∅) es1 fk' → fk' !! k = None) →
      (∃ es1 t es2 fk, es = es1 ++ SCommit t :: es2 ∧
       (sched_run hm_fork hm_merge (m, ∅) es1).2 !! t = Some fk ∧ fk !! k = Some v ∧
       ∀ fk', committed hm_fork hm_merge (m, ∅) es1 fk' → fk' !! k = None) ∨
      ∃ t fk, e = SCommit t ∧ (sched_run hm_fork hm_merge (m, ∅) es).2 !! t = Some fk ∧ fk !! k = Some v ∧
       ∀ fk', committed hm_fork hm_merge (m, ∅) es fk' → fk' !! k = None).
    { intros (es1 & t & es2 & fk & He & H1 & H2 & H3). destruct es2 as [|e' es2] using List.rev_ind.
      - apply app_inj_2 in He as [<- He]; [|done]. injection He as ->. right. by exists t, fk.
      - rewrite app_comm_cons, app_assoc in He. apply app_inj_2 in He as [-> He]; [|done]. left. by exists es1, t, es2, fk. }
    assert (Hnew : ∀ t fk, e = SCommit t → (sched_run hm_fork hm_merge (m, ∅) es).2 !! t = Some fk → fk !! k = Some v →
       (∀ fk', committed hm_fork hm_merge (m, ∅) es fk' → fk' !! k = None) →
      ∃ es1 t es2 fk, es ++ [e] = es1 ++ SCommit t :: es2 ∧
       (sched_run hm_fork hm_merge (m, ∅) es1).2 !! t = Some fk ∧ fk !! k = Some v ∧
       ∀ fk', committed hm_fork hm_merge (m, ∅) es1 fk' → fk' !! k = None).
    { intros t fk -> ? ? ?. by exists es, t, [], fk. }
    set (P := ∃ es1 t es2 fk, es = es1 ++ SCommit t :: es2 ∧ _) in *.
    set (Q := ∃ es1 t es2 fk, es ++ [e] = es1 ++ SCommit t :: es2 ∧ _) in *.
    assert (Hsame : (∀ t, e ≠ SCommit t ∨ (sched_run hm_fork hm_merge (m, ∅) es).2 !! t = None) → Q → P).
    { intros Hc Hq. destruct (Hext2 Hq) as [?|(t & fk & -> & Hr & _)]; [done|]. destruct (Hc t) as [?|Hn]; [done|by rewrite Hr in Hn]. }
    clearbody Q P. unfold sched_run in *. rewrite foldl_app. cbn [foldl].
    set (r := foldl (sched_step hm_fork hm_merge) (m, ∅) es) in *. clearbody r.
    destruct e as [t|t f|t|t|f]; cbn [sched_step fst].
    + rewrite IH. split; (intros [?|[? ?]]; [by left|right; split; [done|]]); [by apply Hext|apply Hsame; [|done]; by left].
    + rewrite IH. split; (intros [?|[? ?]]; [by left|right; split; [done|]]); [by apply Hext|apply Hsame; [|done]; by left].
    + destruct (r.2 !! t) as [fk|] eqn:Hr; cbn [fst].
      * rewrite hm_merge_lookup. destruct (r.1 !! k) as [w|] eqn:Hrk.
        -- rewrite IH. split; (intros [?|[Hm Hq]]; [by left|right; split; [done|]]); [by apply Hext|].
           destruct (Hext2 Hq) as [?|(t' & fk' & [= <-] & Hr' & _ & Hc)]; [done|].
           assert (Some w = None) by (apply Hnone; done). done.
        -- destruct (proj1 Hnone eq_refl) as [Hm Hc]. split.
           ++ intros Hf. right. split; [done|]. by apply (Hnew t fk).
           ++ intros [?|[_ Hq]]; [congruence|]. destruct (Hext2 Hq) as [Hp|(t' & fk' & [= <-] & Hr' & Hf & _)].
              ** assert (None = Some v) by (apply IH; by right). done.
              ** rewrite Hr in Hr'. by injection Hr' as <-.
      * rewrite IH. split; (intros [?|[? ?]]; [by left|right; split; [done|]]); [by apply Hext|]. apply Hsame; [|done].
        intros t'. destruct (decide (t' = t)) as [->|]; [by right|left; congruence].
    + rewrite IH. split; (intros [?|[? ?]]; [by left|right; split; [done|]]); [by apply Hext|apply Hsame; [|done]; by left].
    + exfalso. apply (Ho f), elem_of_app. right. by constructor.
Qed.
