(** Locks that are taken in the order of their ranks do not deadlock. *)
From Coq Require Import Arith Lia.
From stdpp Require Import base list gmap relations.
From Verif Require Import LockModel LockSpec.

Section ranks.
Context (rank : lock -> nat).

(** A program that takes and drops locks like brackets, each of rank [lo] or more and of a higher rank
    than those around it. *)
Inductive nested : nat -> prog -> Prop :=
  | n_nil lo : nested lo []
  | n_under lo l q p : lo <= rank l -> nested (S (rank l)) q -> nested lo p -> nested lo (Take l :: q ++ Drop l :: p).
(** A task in the middle of such a program. *)
Inductive going : list lock -> prog -> Prop :=
  | g_nil p : nested 0 p -> going [] p
  | g_cons l h q p : (forall x, x ∈ h -> rank x < rank l) -> nested (S (rank l)) q -> going h p -> going (l :: h) (q ++ Drop l :: p).

Lemma nested_app lo p q : nested lo p -> nested lo q -> nested lo (p ++ q).
Proof.
  induction 1 as [|lo l a b L Na IHa Nb IHb]; [done|]. intros Q. specialize (IHb Q). cbn.
  rewrite <- app_assoc. cbn. constructor; done.
Qed.
Lemma nested_weak lo lo' p : nested lo p -> lo' <= lo -> nested lo' p.
Proof. induction 1 as [|lo l a b L Na IHa Nb IHb]; intros; constructor; [lia|done|eauto]. Qed.
Lemma nested_touch lo l : lo <= rank l -> nested lo (touch l).
Proof. intros L. apply (n_under lo l [] []); [done|constructor|constructor]. Qed.
Lemma nested_below lo l p : lo <= rank l -> nested (S (rank l)) p -> nested lo (under l p).
Proof. intros L N. apply (n_under lo l p []); [done|done|constructor]. Qed.
Lemma nested_touches lo ls : (forall l, l ∈ ls -> lo <= rank l) -> nested lo (touches ls).
Proof.
  induction ls as [|l ls IH]; intros H; [constructor|]. unfold touches. cbn [map concat].
  apply nested_app; [apply nested_touch, H; left|apply IH; intros x Hx; apply H; right; done].
Qed.
Lemma nested_concat lo ps : (forall p, p ∈ ps -> nested lo p) -> nested lo (concat ps).
Proof.
  induction ps as [|p ps IH]; intros H; [constructor|]. cbn [concat].
  apply nested_app; [apply H; left|apply IH; intros x Hx; apply H; right; done].
Qed.

Lemma going_take h l p : going h (Take l :: p) -> going (l :: h) p /\ forall x, x ∈ h -> rank x < rank l.
Proof.
  remember (Take l :: p) as t eqn:E. intros G. revert l p E. induction G as [t N|x h q r X N G IH]; intros l p E; subst.
  - inversion N as [|lo k a b L Na Nb]; subst. split; [|intros x Hx; inversion Hx].
    constructor; [intros x Hx; inversion Hx|done|constructor; done].
  - inversion N as [|lo k a b L Na Nb]; subst; [discriminate E|].
    cbn in E. injection E as E1 E2; subst k p. rewrite <- app_assoc. cbn [app]. split.
    + constructor; [|done|constructor; done].
      intros y [-> | Hy]%elem_of_cons; [lia|]. specialize (X y Hy). lia.
    + intros y [-> | Hy]%elem_of_cons; [lia|]. specialize (X y Hy). lia.
Qed.
Lemma going_drop h l p : going h (Drop l :: p) -> exists h', h = l :: h' /\ going h' p.
Proof.
  intros G. inversion G as [t N|x h' q r X N G' E1]; subst.
  - inversion N.
  - destruct q as [|a q]; cbn in *; [|inversion N; subst; discriminate].
    simplify_eq. eauto.
Qed.
Lemma going_nil h : going h [] -> h = [].
Proof. intros G. inversion G as [|x h' q r X N G' E1 E2]; [done|]. destruct q; discriminate. Qed.

Notation good P := (forall t : list lock * prog, t ∈ P -> going t.1 t.2).

Lemma good_insert (P : pool) n t : good P -> going t.1 t.2 -> good (<[n := t]> P).
Proof.
  intros G T x [i Hi]%elem_of_list_lookup. apply list_lookup_insert_Some in Hi as [(E & E' & _)|[_ Hi]]; [by subst|].
  apply G, elem_of_list_lookup. eauto.
Qed.
Lemma good_fire n P Q : good P -> fire n P = Some Q -> good Q.
Proof.
  unfold fire. intros G E. destruct (P !! n) as [[h p]|] eqn:L; [|done].
  assert (T : going h p) by (apply (G (h, p)), elem_of_list_lookup; eauto).
  destruct p as [|[l|l] p]; [done| |].
  - destruct (taken P l); [done|]. injection E as <-. apply good_insert; [done|]. apply going_take in T as [T _]. exact T.
  - injection E as <-. apply good_insert; [done|]. apply going_drop in T as (h' & -> & T). cbn. rewrite bool_decide_true; done.
Qed.
Lemma good_cancel n P : good P -> good (cancel n P).
Proof. intros G. apply good_insert; [done|]. constructor. constructor. Qed.
Lemma good_moves P Q : good P -> rtc moves P Q -> good Q.
Proof.
  intros G R. induction R as [|P Q R' M _ IH]; [done|]. apply IH.
  destruct M as [[n F]|(n & _ & ->)]; [eapply good_fire; done|apply good_cancel; done].
Qed.
Lemma good_follow ns P Q : good P -> follow ns P = Some Q -> good Q.
Proof.
  revert P. induction ns as [|n ns IH]; intros P G E; cbn in E; [injection E as <-; done|].
  destruct (fire n P) as [R|] eqn:F; [|done]. eapply IH; [eapply good_fire; done|done].
Qed.

Lemma taken_spec P l : taken P l = true <-> exists t, t ∈ P /\ l ∈ t.1.
Proof.
  unfold taken. rewrite existsb_exists. split.
  - intros (t & I & B). apply bool_decide_eq_true in B. apply elem_of_list_In in I. eauto.
  - intros (t & I & B). exists t. apply elem_of_list_In in I. rewrite bool_decide_true; done.
Qed.

(** What a waiting task wants. *)
Definition wants (t : list lock * prog) : nat := match t.2 with Take l :: _ => rank l | _ => 0 end.
Lemma greatest {A} (f : A -> nat) (l : list A) (p : A -> Prop) `{forall x, Decision (p x)} :
  (exists x, x ∈ l /\ p x) -> exists x, x ∈ l /\ p x /\ forall y, y ∈ l -> p y -> f y <= f x.
Proof.
  induction l as [|a l IH]; intros (x & I & X); [inversion I|].
  destruct (decide (Exists p l)) as [E|E].
  - apply Exists_exists in E. destruct IH as (m & M1 & M2 & M3); [done|].
    destruct (decide (p a)) as [Pa|Pa].
    + destruct (le_lt_dec (f a) (f m)) as [C|C].
      * exists m. split; [right; done|]. split; [done|]. intros y [-> |Y]%elem_of_cons Py; [done|eauto].
      * exists a. split; [left|]. split; [done|]. intros y [-> |Y]%elem_of_cons Py; [done|]. specialize (M3 y Y Py). lia.
    + exists m. split; [right; done|]. split; [done|]. intros y [-> |Y]%elem_of_cons Py; [done|eauto].
  - assert (x = a) as ->. { apply elem_of_cons in I as [I|I]; [done|]. destruct E. apply Exists_exists; eauto. }
    exists a. split; [left|]. split; [done|]. intros y [-> |Y]%elem_of_cons Py; [done|]. destruct E. apply Exists_exists; eauto.
Qed.

Lemma good_progress P : good P -> ~ deadlocked P.
Proof.
  intros G [U S].
  assert (N : exists t, t ∈ P /\ t.2 <> []).
  { destruct (decide (Exists (fun t : list lock * prog => t.2 <> []) P)) as [E|E]; [apply Exists_exists in E; done|].
    destruct U. intros t T. destruct t.2 eqn:Z; [done|]. destruct E. apply Exists_exists. exists t. split; [done|]. rewrite Z; done. }
  assert (DD : forall x : list lock * prog, Decision (x.2 <> [])).
  { intros [h p]. cbn. destruct p; [right; intros F; apply F; done|left; done]. }
  destruct (greatest wants P (fun t => t.2 <> []) N) as ([h p] & I & NE & Max).
  apply elem_of_list_lookup in I as [n L]. pose proof (S n) as Sn. unfold fire in Sn. rewrite L in Sn. cbn in NE.
  destruct p as [|[l|l] p]; [done| |done].
  destruct (taken P l) eqn:T; [|done]. apply taken_spec in T as ([h' p'] & I' & In). cbn in In.
  pose proof (G _ I') as G'. cbn in G'.
  assert (NE' : p' <> []). { intros ->. apply going_nil in G'. subst. inversion In. }
  pose proof I' as J. apply elem_of_list_lookup in J as [m L']. pose proof (S m) as Sm. unfold fire in Sm. rewrite L' in Sm.
  destruct p' as [|[k|k] p']; [done| |done].
  apply going_take in G' as [_ R]. specialize (R _ In).
  specialize (Max _ I' NE'). unfold wants in Max. cbn in Max. lia.
Qed.

Notation left_over P := (sum_list_with (fun t : list lock * prog => length t.2) P).
Lemma sum_insert (P : pool) n t u : P !! n = Some t -> left_over (<[n := u]> P) + length t.2 = left_over P + length u.2.
Proof.
  revert n. induction P as [|x P IH]; intros [|n] L; try done.
  - cbn in L. injection L as ->. cbn [insert list_insert sum_list_with]. lia.
  - change (<[S n := u]> (x :: P)) with (x :: <[n := u]> P). cbn [sum_list_with].
    pose proof (IH n L) as Z. lia.
Qed.
Lemma fire_less n P Q : fire n P = Some Q -> S (left_over Q) = left_over P.
Proof.
  unfold fire. destruct (P !! n) as [[h p]|] eqn:L; [|done]. destruct p as [|[l|l] p]; [done| |].
  - destruct (taken P l); [done|]. intros E; injection E as <-. pose proof (sum_insert P n _ (l :: h, p) L) as Z. cbn [snd length] in Z. lia.
  - intros E; injection E as <-. pose proof (sum_insert P n _ (remove1 l h, p) L) as Z. cbn [snd length] in Z. lia.
Qed.
Lemma follow_less ns P Q : follow ns P = Some Q -> length ns + left_over Q = left_over P.
Proof.
  revert P. induction ns as [|n ns IH]; intros P E; cbn [follow] in E; [injection E as <-; done|].
  destruct (fire n P) as [R|] eqn:F; [|done]. apply fire_less in F. specialize (IH _ E). cbn [length]. lia.
Qed.
Lemma follow_app ns ms P : follow (ns ++ ms) P = match follow ns P with Some Q => follow ms Q | None => None end.
Proof. revert P. induction ns as [|n ns IH]; intros P; cbn [follow app]; [done|]. destruct (fire n P); [apply IH|done]. Qed.

Lemma can_fire P : good P -> all_returned P \/ exists n Q, fire n P = Some Q.
Proof.
  intros G. pose proof (good_progress P G) as D.
  destruct (decide (Exists (fun n => is_Some (fire n P)) (seq 0 (length P)))) as [E|E].
  - right. apply Exists_exists in E as (n & _ & Q & F). eauto.
  - left. destruct (decide (Forall (fun t : list lock * prog => t.2 = []) P)) as [A|A]; [intros t T; rewrite Forall_forall in A; apply A; done|].
    destruct D. split; [intros R; apply A; apply Forall_forall; done|].
    intros n. destruct (fire n P) as [Q|] eqn:F; [|done]. destruct E. apply Exists_exists. exists n. split; [|eauto].
    apply elem_of_seq. unfold fire in F. destruct (P !! n) eqn:L; [|done]. apply lookup_lt_Some in L. lia.
Qed.
Lemma finish P : good P -> exists ms R, follow ms P = Some R /\ all_returned R.
Proof.
  remember (left_over P) as k eqn:K. revert P K. induction k as [k IH] using lt_wf_ind. intros P K G.
  destruct (can_fire P G) as [A|(n & Q & F)]; [exists [], P; done|].
  pose proof (fire_less _ _ _ F) as L. destruct (IH (left_over Q)) with (P := Q) as (ms & R & E & A); [lia|done|eapply good_fire; done|].
  exists (n :: ms), R. cbn [follow]. rewrite F. done.
Qed.

Theorem nested_return ps : (forall p, p ∈ ps -> nested 0 p) -> always_return ps.
Proof.
  intros N P M.
  assert (G : good P).
  { eapply good_moves; [|exact M]. intros t T. unfold start_all in T. apply elem_of_list_fmap in T as (p & -> & I). constructor. apply N, I. }
  split; [apply good_progress, G|]. split.
  - intros ns Q F. apply follow_less in F. lia.
  - intros ns Q F. destruct (finish Q) as (ms & R & E & A); [eapply good_follow; done|].
    exists ms, R. rewrite follow_app, F. done.
Qed.
End ranks.

(** ** The order of the locks of a client *)
Section order.
Context (w : world) (depth : nat -> nat) (top : nat).
Hypothesis HL : forall a b, b ∈ w_inside w a -> depth a < depth b /\ depth b <= top.

Definition lock_rank (l : lock) : nat :=
  match l with
  | LActive => 0 | LRng => 1 | LGroups => 2 | LDocs => 3 | LIndies => 4
  | LItem i => 5 + Nat.min top (depth i)
  | LPairs => 6 + top | LIndie _ => 7 + top | LDlgs => 8 + top | LRevs => 9 + top | LStore => 10 + top | LPending => 11 + top
  end.
Notation ord := (nested lock_rank).
Notation item i := (lock_rank (LItem i)).

Lemma inside_rank a b : b ∈ w_inside w a -> item a < item b.
Proof. intros I. destruct (HL a b I). cbn. lia. Qed.
Lemma behind_rank a b : behind w a b -> item a < item b.
Proof. induction 1 as [a b I|a b c I _ IH]; [apply inside_rank, I|]. apply inside_rank in I. lia. Qed.
Lemma item_low i : 5 <= item i. Proof. cbn; lia. Qed.
Lemma item_high i : item i <= 5 + top. Proof. cbn; lia. Qed.

Lemma o_walk lo vs : (forall v, v ∈ vs -> lo <= item v) -> ord lo (walk vs).
Proof. intros H. apply nested_touches. intros l (v & -> & I)%elem_of_list_fmap. apply H, I. Qed.
Lemma o_walk5 vs : ord 5 (walk vs).
Proof. apply o_walk. intros; apply item_low. Qed.
Lemma o_members lo i p : lo <= item i -> members_of w i p -> ord lo p.
Proof.
  intros L (vs & [V _] & ->). apply nested_below; [done|]. apply o_walk. intros v (B & _ & _)%V. apply behind_rank in B. lia.
Qed.
Lemma o_each lo (f : nat -> prog -> Prop) is p : (forall i q, i ∈ is -> f i q -> ord lo q) -> each f is p -> ord lo p.
Proof.
  intros H E. induction E as [|i is p q F E IH]; [constructor|]. apply nested_app; [eapply H; [left|done]|].
  apply IH. intros j r J. apply H. right; done.
Qed.
Lemma o_touch lo l : lo <= lock_rank l -> ord lo (touch l). Proof. apply nested_touch. Qed.
Lemma o_reads0 a : ord 0 (reads_keys w a).
Proof.
  unfold reads_keys. destruct (w_item w a); [apply o_touch; lia|]. destruct (bool_decide _); [|apply o_touch; lia].
  apply nested_below; [cbn; lia|]. apply o_touch. cbn. lia.
Qed.
Lemma o_reads lo a : lo <= item a -> a <> w_me w -> ord lo (reads_keys w a).
Proof.
  unfold reads_keys. intros L N. destruct (w_item w a); [apply o_touch; done|]. rewrite bool_decide_false by done.
  apply o_touch. pose proof (item_high a). cbn in *. lia.
Qed.
Lemma o_reads_all l : ord 0 (concat (map (reads_keys w) l)).
Proof. apply nested_concat. intros q (v & -> & _)%elem_of_list_fmap. apply o_reads0. Qed.
Lemma o_picks0 a p : picks w a p -> ord 0 p.
Proof. intros (l & _ & ->). apply o_reads_all. Qed.
Lemma o_picks lo a p : lo <= item a -> a <> w_me w -> ~ behind w a (w_me w) -> picks w a p -> ord lo p.
Proof.
  intros L N B (l & [H _] & ->). apply nested_concat. intros q (v & -> & I)%elem_of_list_fmap.
  destruct (H v I) as [-> |V]; [apply o_reads; done|]. apply o_reads; [|intros ->; done]. apply behind_rank in V. lia.
Qed.
Lemma o_ids lo a p : lo <= item a -> finds_ids w a p -> ord lo p.
Proof.
  intros L (l & [H _] & ->). apply o_walk. intros v I. destruct (H v I) as [[-> |B] _]; [done|]. apply behind_rank in B. lia.
Qed.
Lemma o_checks i p : checks w i p -> ord (S (item i)) p.
Proof.
  intros (ms & M & E). eapply o_each; [|exact E]. intros m q I. apply o_members.
  destruct (M m I) as [J _]. apply inside_rank in J. exact J.
Qed.
Lemma o_late i l : 6 + top <= lock_rank l -> ord (S (item i)) (touch l).
Proof. intros L. apply o_touch. pose proof (item_high i). lia. Qed.
Lemma o_changes i p : changes w i p -> ord (S (item i)) p.
Proof.
  induction 1 as [|p q C _ IH|p q C _ IH]; [constructor| |];
    (apply nested_app; [apply o_checks, C|apply nested_app; [apply o_late; cbn; lia|done]]).
Qed.
Lemma o_looks p : looks p -> ord 0 p.
Proof. intros (n & ->). apply nested_touches. intros; lia. Qed.
Lemma o_stores p : stores p -> ord (8 + top) p.
Proof. intros (ls & H & ->). apply nested_touches. intros l I. destruct (H l I) as [-> | ->]; cbn; lia. Qed.
Lemma o_weak0 lo p : ord lo p -> ord 0 p.
Proof. intros N. eapply nested_weak; [done|lia]. Qed.
Lemma o_reaches p : reaches w p -> ord 3 p.
Proof.
  intros (ds & q & _ & E & ->). apply nested_app; [apply o_touch; cbn; lia|].
  eapply o_each; [|exact E]. intros i r _. apply o_members. pose proof (item_low i). lia.
Qed.
Lemma o_reaches_all p : reaches_all w p -> ord 0 p.
Proof.
  intros (gs & ds & q & r & _ & _ & E & E' & ->).
  repeat (apply nested_app; [first [apply o_touch; lia|eapply o_each; [|eassumption]; intros; eapply o_members; [|done]; lia]|]).
  eapply o_each; [|eassumption]; intros; eapply o_members; [|done]; lia.
Qed.
Lemma o_some p : some_items p -> ord 0 p.
Proof. intros (vs & ->). apply o_walk. intros; lia. Qed.
Lemma o_indies lo is : lo <= 7 + top -> ord lo (touches (map LIndie is)).
Proof. intros L. apply nested_touches. intros l (v & -> & _)%elem_of_list_fmap. cbn. lia. Qed.
Lemma o_promotes i p : promotes i 0 p -> ord 5 p.
Proof.
  intros (q & S & ->). repeat (apply nested_app; [first [apply o_touch; cbn; lia|eapply nested_weak; [apply o_stores; done|lia]]|]).
  apply nested_below; [cbn; lia|]. constructor.
Qed.

Ltac o_each0 := eapply o_each; [|eassumption].
Ltac step :=
  match goal with
  | |- ord _ (_ ++ _) => apply nested_app
  | |- ord _ (touch _) => apply o_touch; pose proof item_high; cbn in *; lia
  | |- ord _ (under _ _) => apply nested_below; [pose proof item_high; cbn in *; lia|]
  | |- ord _ [] => constructor
  | |- ord 0 (walk _) => apply o_walk; intros; lia
  | |- ord _ (walk _) => eapply nested_weak; [apply o_walk5|cbn; lia]
  | |- ord 0 (concat (map (reads_keys _) _)) => apply o_reads_all
  | |- ord 0 (reads_keys _ _) => apply o_reads0
  | |- ord _ (touches (map LIndie _)) => apply o_indies; cbn; lia
  | |- ord _ (touches (replicate _ _)) => apply nested_touches; intros ? [-> _]%elem_of_replicate; cbn; lia
  | H : looks ?p |- ord 0 ?p => apply o_looks, H
  | H : some_items ?p |- ord 0 ?p => apply o_some, H
  | H : stores ?p |- ord _ ?p => eapply nested_weak; [apply o_stores, H|cbn; lia]
  | H : reaches _ ?p |- ord _ ?p => eapply nested_weak; [apply o_reaches, H|cbn; lia]
  | H : reaches_all _ ?p |- ord _ ?p => eapply nested_weak; [apply o_reaches_all, H|cbn; lia]
  | H : changes _ ?i ?p |- ord _ ?p => eapply nested_weak; [apply o_changes, H|cbn; lia]
  | H : checks _ ?i ?p |- ord _ ?p => eapply nested_weak; [apply o_checks, H|cbn; lia]
  | H : picks _ ?i ?p |- ord 0 ?p => eapply o_picks0, H
  | H : finds_ids _ ?i ?p |- ord 0 ?p => eapply o_ids, H; lia
  | H : members_of _ ?i ?p |- ord 0 ?p => eapply o_members, H; lia
  end.

Lemma takes_ord c p : orderly w c -> takes w c p -> ord 0 p.
Proof.
  destruct c; cbn [takes orderly]; intros O T; try (subst p; unfold rotate; repeat step; done); try done.
  - (* register *) destruct T as (q & ls & L & H & ->). step; [step|]. apply nested_touches. intros; lia.
  - (* add to a group *) destruct T as (q1 & q2 & ds & C & _ & R & NR & ->). destruct O as [-> I].
    repeat step. { constructor. } { destruct reader; repeat step. }
    destruct reader; [|rewrite NR by done; constructor]. specialize (R eq_refl). o_each0.
    intros d q _ (q3 & q4 & M & P & ->). step; [step|]. destruct P as [-> |(q & P & ->)]; repeat step.
  - (* to a document *) destruct T as (q1 & q2 & C & P & ->). destruct O as (-> & I & N).
    repeat step. { constructor. } destruct reader; [|subst; constructor]. destruct N as [N1 N2]; [done|].
    eapply o_picks; [|exact N1|exact N2|exact P]. apply inside_rank in I. exact I.
  - (* revoke from a group *) destruct T as (r & ds & q1 & q2 & q3 & es & R & F & C & _ & E & ->). repeat step.
    o_each0. intros d q _ (q' & M & ->). repeat step.
  - (* from a document *) destruct T as (r & ds & q1 & q2 & q3 & ms & R & F & C & M & E & ->). repeat step.
    + destruct F as [-> |[I F]]; [constructor|]. eapply o_ids; [|exact F]. apply inside_rank in I. exact I.
    + o_each0. intros m q I F'. eapply o_ids; [|exact F']. apply M, inside_rank in I. exact I.
  - (* causal *) destruct T as (n & ->). step. apply nested_touches. intros l [-> _]%elem_of_replicate. pose proof (item_high d). cbn in *. lia.
  - destruct T as (r & R & ->). repeat step.
  - destruct T as [R|R]; repeat step.
  - step.
  - destruct T as (r & q1 & q2 & R & S1 & S2 & ->). repeat step.
  - destruct T as (q & r & gs & ds & _ & _ & E & E' & ->). repeat step; o_each0; intros i q' _ (q1 & q2 & M & S1 & ->); repeat step.
  - destruct T as (l & q & r & gs & ds & _ & _ & E & E' & ->). repeat step; o_each0; intros i q' _ (q1 & l' & M & ->); repeat step.
  - destruct T as (q & r & l & is & gs & ds & _ & _ & E & E' & _ & ->). repeat step; o_each0; intros i q' _ M; repeat step.
  - destruct T as (r & q & R & S1 & ->). repeat step.
  - destruct T as (q & ds & _ & E & ->). repeat step. o_each0. intros i q' _ [M| ->]; repeat step.
  - destruct T as [-> | ->]; repeat step.
  - destruct T as [L|[-> |[-> | ->]]]; repeat step.
  - destruct T as (q & L & [-> |[-> | ->]]); repeat step.
  - destruct T as (q1 & q2 & q3 & S1 & L & S3 & T). destruct pl.
    + destruct T as (q & C & ->). repeat step.
    + destruct T as (q & C & ->). repeat step.
    + subst revs. destruct T as (q & P & ->). repeat step. eapply nested_weak; [eapply o_promotes, P|cbn; lia].
    + destruct T as (q & l & S4 & [-> | ->] & ->); repeat step.
  - destruct T as (q1 & S1 & T). destruct pl; [| | |done].
    + destruct T as (q & C & ->). repeat step.
    + destruct T as (q & C & ->). repeat step.
    + subst revs. destruct T as (q & q' & P & C & ->). repeat step. eapply nested_weak; [eapply o_promotes, P|cbn; lia].
  - destruct T as [-> |[-> |[_ [-> | ->]]]]; repeat step.
  - destruct T as (is & gs & ds & _ & _ & _ & ->). repeat step.
  - destruct T as (l & ->). repeat step. apply nested_concat. intros q (v & -> & _)%elem_of_list_fmap. repeat step.
Qed.
Lemma takes_all_ord cs p : (forall c, c ∈ cs -> orderly w c) -> takes_all w cs p -> ord 0 p.
Proof.
  revert p. induction cs as [|c cs IH]; intros p O T; cbn in T; [subst; constructor|].
  destruct T as (q & r & T & R & ->). apply nested_app; [eapply takes_ord; [apply O; left|done]|].
  apply IH; [|done]. intros d D. apply O. right; done.
Qed.
End order.

(** ** Worlds without circles have depths *)
Section chains.
Context (w : world) (nodes : list nat).
Hypothesis HN : forall a b, b ∈ w_inside w a -> a ∈ nodes.
Hypothesis HC : no_circles w.

Inductive chain : nat -> list nat -> Prop :=
  | chain_nil a : chain a []
  | chain_cons a b l : b ∈ w_inside w a -> chain b l -> chain a (b :: l).
Fixpoint longest (n a : nat) : nat :=
  match n with 0 => 0 | S n => foldr Nat.max 0 (map (fun b => S (longest n b)) (w_inside w a)) end.

Lemma foldr_max_le l x : x ∈ l -> x <= foldr Nat.max 0 l.
Proof. induction l as [|y l IH]; intros I; [inversion I|]. cbn. apply elem_of_cons in I as [-> |I]; [lia|]. specialize (IH I). lia. Qed.
Lemma foldr_max_in l : foldr Nat.max 0 l = 0 \/ foldr Nat.max 0 l ∈ l.
Proof.
  induction l as [|y l IH]; [by left|]. cbn [foldr]. destruct (Nat.max_dec y (foldr Nat.max 0 l)) as [E|E]; rewrite E; [right; left|].
  destruct IH as [-> |IH]; [by left|right; right; done].
Qed.
Lemma longest_chain n a : exists l, chain a l /\ length l = longest n a.
Proof.
  revert a. induction n as [|n IH]; intros a; [exists []; split; [constructor|done]|]. cbn [longest].
  destruct (foldr_max_in (map (fun b => S (longest n b)) (w_inside w a))) as [E|E]; [rewrite E; exists []; split; [constructor|done]|].
  apply elem_of_list_fmap in E as (b & E & I). rewrite E. destruct (IH b) as (l & C & L).
  exists (b :: l). split; [constructor; done|]. cbn. lia.
Qed.
Lemma chain_longest n a l : chain a l -> length l <= n -> length l <= longest n a.
Proof.
  revert a l. induction n as [|n IH]; intros a l C L; [destruct l; cbn in *; lia|].
  destruct C as [a|a b l I C]; [cbn; lia|]. cbn in L. cbn [longest length].
  etransitivity; [|apply foldr_max_le, elem_of_list_fmap; exists b; split; [reflexivity|exact I]].
  specialize (IH b l C). lia.
Qed.
Lemma chain_behind a l b : chain a l -> b ∈ l -> behind w a b.
Proof.
  induction 1 as [a|a c l I C IH]; intros B; [inversion B|]. apply elem_of_cons in B as [-> |B]; [constructor; done|].
  eapply tc_l; [exact I|]. apply IH, B.
Qed.
Lemma chain_nodup a l : chain a l -> NoDup (a :: l).
Proof.
  induction 1 as [a|a b l I C IH]; [repeat constructor; intros X; inversion X|]. constructor; [|done].
  intros X. apply (HC a). eapply chain_behind; [constructor; done|done].
Qed.
Lemma chain_nodes a l : chain a l -> exists m, length m = length l /\ NoDup m /\ (forall x, x ∈ m -> x ∈ nodes /\ x ∈ a :: l).
Proof.
  induction 1 as [a|a b l I C IH]; [exists []; split; [done|split; [constructor|intros x X; inversion X]]|].
  destruct IH as (m & L & N & H). exists (a :: m). split; [cbn; lia|]. split.
  - constructor; [|done]. intros X. apply H in X as [_ X].
    assert (Z : NoDup (a :: b :: l)) by (apply chain_nodup; constructor; done).
    apply NoDup_cons in Z as [Z _]. done.
  - intros x [-> |X]%elem_of_cons; [split; [eapply HN, I|left]|]. apply H in X as [X Y]. split; [done|right; done].
Qed.
Lemma chain_short a l : chain a l -> length l <= length nodes.
Proof.
  intros C. destruct (chain_nodes a l C) as (m & L & N & H). rewrite <- L.
  apply submseteq_length, NoDup_submseteq; [done|]. intros x X. apply H, X.
Qed.
Lemma depths a b : b ∈ w_inside w a ->
  length nodes - longest (length nodes) a < length nodes - longest (length nodes) b /\ length nodes - longest (length nodes) b <= length nodes.
Proof.
  intros I. destruct (longest_chain (length nodes) b) as (l & C & L).
  assert (D : chain a (b :: l)) by (constructor; done).
  pose proof (chain_short _ _ D) as E. pose proof (chain_longest (length nodes) _ _ D E) as F. cbn in E, F.
  destruct (longest_chain (length nodes) a) as (k & K & K'). pose proof (chain_short _ _ K). lia.
Qed.
End chains.

Theorem calls_return w css ps : finite_world w -> no_circles w ->
  Forall2 (takes_all w) css ps -> (forall cs c, cs ∈ css -> c ∈ cs -> orderly w c) -> always_return ps.
Proof.
  intros [nodes HN] HC F O.
  eapply nested_return with (rank := lock_rank (fun a => length nodes - longest w (length nodes) a) (length nodes)).
  intros p I. apply elem_of_list_lookup in I as [n L]. destruct (Forall2_lookup_r _ _ _ _ _ F L) as (cs & C & T).
  eapply takes_all_ord; [|intros c Hc; eapply O; [apply elem_of_list_lookup; eauto|exact Hc]|exact T].
  intros a b I. apply depths; done.
Qed.

(** ** One task *)

(** A program that takes no lock again before it dropped it. *)
Inductive sole : list lock -> prog -> Prop :=
  | s_nil h : sole h []
  | s_under h l q p : l ∉ h -> sole (l :: h) q -> sole h p -> sole h (Take l :: q ++ Drop l :: p).
Lemma sole_app h p q : sole h p -> sole h q -> sole h (p ++ q).
Proof. induction 1 as [|h l a b L Na IHa Nb IHb]; [done|]. intros Q. specialize (IHb Q). cbn. rewrite <- app_assoc. cbn. constructor; done. Qed.
Lemma sole_touch h l : l ∉ h -> sole h (touch l).
Proof. intros L. apply (s_under h l [] []); [done|constructor|constructor]. Qed.
Lemma sole_below h l p : l ∉ h -> sole (l :: h) p -> sole h (under l p).
Proof. intros L N. apply (s_under h l p []); [done|done|constructor]. Qed.
Lemma sole_touches h ls : (forall l, l ∈ ls -> l ∉ h) -> sole h (touches ls).
Proof.
  induction ls as [|l ls IH]; intros H; [constructor|]. unfold touches. cbn [map concat].
  apply sole_app; [apply sole_touch, H; left|apply IH; intros x Hx; apply H; right; done].
Qed.
Lemma sole_concat h ps : (forall p, p ∈ ps -> sole h p) -> sole h (concat ps).
Proof.
  induction ps as [|p ps IH]; intros H; [constructor|]. cbn [concat].
  apply sole_app; [apply H; left|apply IH; intros x Hx; apply H; right; done].
Qed.
Lemma sole_each h (f : nat -> prog -> Prop) is p : (forall i q, i ∈ is -> f i q -> sole h q) -> each f is p -> sole h p.
Proof.
  intros H E. induction E as [|i is p q F E IH]; [constructor|]. apply sole_app; [eapply H; [left|done]|].
  apply IH. intros j r J. apply H. right; done.
Qed.
Lemma nested_sole rank lo h p : nested rank lo p -> (forall x, x ∈ h -> rank x < lo) -> sole h p.
Proof.
  intros N. revert h. induction N as [|lo l a b L Na IHa Nb IHb]; intros h H; constructor.
  - intros I. apply H in I. lia.
  - apply IHa. intros x [-> |X]%elem_of_cons; [lia|]. apply H in X. lia.
  - apply IHb, H.
Qed.

Inductive at_work : list lock -> prog -> Prop :=
  | w_out p : sole [] p -> at_work [] p
  | w_in l h q p : sole (l :: h) q -> at_work h p -> at_work (l :: h) (q ++ Drop l :: p).
Lemma at_work_step h p : at_work h p -> p = [] \/ exists h' p', fire 0 [(h, p)] = Some [(h', p')] /\ at_work h' p' /\ S (length p') = length p.
Proof.
  intros W. destruct W as [p S|l h q p S W].
  - inversion S as [|h l a b L Sa Sb]; subst; [by left|right]. unfold fire. cbn. rewrite bool_decide_false by done. cbn.
    eexists _, _. split; [reflexivity|]. split; [|done]. constructor; [done|constructor; done].
  - right. remember (l :: h) as k. destruct S as [k|k x a b L Sa Sb].
    + subst k. unfold fire. cbn. rewrite bool_decide_true by done. eexists _, _. split; [reflexivity|]. split; done.
    + unfold fire. cbn. rewrite bool_decide_false by done. cbn. eexists _, _. split; [reflexivity|]. rewrite <- app_assoc. cbn.
      split; [|done]. constructor; [done|]. subst k. constructor; done.
Qed.
Lemma at_work_returns n h p : length p = n -> at_work h p -> exists ns R, follow ns [(h, p)] = Some R /\ all_returned R.
Proof.
  revert h p. induction n as [|n IH]; intros h p L W.
  - destruct p; [|done]. exists [], [(h, [])]. split; [done|]. intros t ->%elem_of_list_singleton. done.
  - destruct (at_work_step h p W) as [-> |(h' & p' & F & W' & L')]; [done|].
    destruct (IH h' p') as (ns & R & G & A); [lia|done|]. exists (0 :: ns), R. cbn [follow]. rewrite F. done.
Qed.
Lemma sole_returns p : sole [] p -> returns_alone p.
Proof. intros S. destruct (at_work_returns (length p) [] p) as (ns & R & F & A); [done|constructor; done|]. exists ns, R. done. Qed.

Section alone.
Context (w : world) (depth : nat -> nat) (top : nat).
Hypothesis HL : forall a b, b ∈ w_inside w a -> depth a < depth b /\ depth b <= top.
Notation ord := (nested (lock_rank depth top)).

Lemma sole_reads h a : (w_item w a = true -> LItem a ∉ h) -> LActive ∉ h -> LIndie a ∉ h -> sole h (reads_keys w a).
Proof.
  intros H1 H2 H3. unfold reads_keys. destruct (w_item w a); [apply sole_touch; auto|].
  destruct (bool_decide _) eqn:B; [|apply sole_touch; auto]. apply bool_decide_eq_true in B as ->.
  apply sole_below; [done|]. apply sole_touch. rewrite elem_of_cons. intros [X|X]; done.
Qed.
Lemma behind_other a b : behind w a b -> a <> b.
Proof. intros B ->. apply (behind_rank w depth top HL) in B. lia. Qed.
Lemma sole_changes i p : changes w i p -> sole [LItem i] p.
Proof. intros C. eapply nested_sole; [eapply o_changes; done|]. intros x ->%elem_of_list_singleton. lia. Qed.
Lemma orderly_sole c p : orderly w c -> takes w c p -> sole [] p.
Proof. intros O T. eapply nested_sole; [eapply takes_ord; done|]. intros x X. inversion X. Qed.
Lemma sole_promotes h i revs q : (forall x, x ∈ h -> x = LGroups \/ x = LDocs \/ x = LIndies) -> promotes i revs q -> sole h q.
Proof.
  intros H (r & (ls & S & ->) & ->).
  assert (N : forall x, (x <> LGroups /\ x <> LDocs /\ x <> LIndies) -> x ∉ h) by (intros x N I; destruct (H x I) as [?|[?|?]]; tauto).
  repeat apply sole_app; [apply sole_touch, N; done| |apply sole_touch, N; done|].
  - apply sole_touches. intros l I. apply N. destruct (S l I) as [-> | ->]; done.
  - apply sole_below; [apply N; done|]. apply sole_touches. intros l [-> _]%elem_of_replicate.
    rewrite elem_of_cons. intros [X|X]; [done|]. revert X. apply N. done.
Qed.
Lemma sole_stores h q : LDlgs ∉ h -> LRevs ∉ h -> stores q -> sole h q.
Proof. intros H1 H2 (ls & S & ->). apply sole_touches. intros l I. destruct (S l I) as [-> | ->]; done. Qed.
Lemma sole_looks q : looks q -> sole [] q.
Proof. intros (n & ->). apply sole_touches. intros l _ X. inversion X. Qed.
Ltac free := rewrite ?elem_of_cons, ?elem_of_nil; intuition congruence.
Ltac so := repeat first
  [ apply sole_app | apply sole_touch; free | apply sole_below; [free|] | constructor
  | apply sole_looks; assumption | apply sole_stores; [free|free|assumption]
  | apply sole_touches; intros ? [-> _]%elem_of_replicate; free
  | apply sole_touches; intros ? (? & -> & _)%elem_of_list_fmap; free ].

Lemma takes_sole c p : unhindered w c -> takes w c p -> sole [] p.
Proof.
  intros U T. destruct c; try (eapply orderly_sole; [|exact T]; exact Logic.I).
  - (* a new document *) destruct T as (q1 & vs & ts & q2 & L & _ & _ & E & ->). so.
    + apply sole_concat. intros q Q. apply sole_looks, L, Q.
    + eapply sole_each; [|exact E]. intros v q _ (l & _ & ->). apply sole_concat. intros r (x & -> & _)%elem_of_list_fmap.
      apply sole_reads; free.
  - (* add to a group *) destruct T as (q1 & q2 & ds & C & _ & R & NR & ->). destruct U as [U I]. so.
    + apply sole_touches. intros l (v & -> & V)%elem_of_list_fmap. rewrite elem_of_list_singleton. intros X. injection X as ->. done.
    + apply sole_changes, C.
    + destruct reader; so.
    + destruct reader; [|rewrite NR by done; so]. eapply sole_each; [|exact (R eq_refl)].
      intros d q _ (q3 & q4 & M & P & ->). so.
      * eapply (orderly_sole (CMembers d)); [exact Logic.I|exact M].
      * destruct P as [-> |(q & (l & _ & ->) & ->)]; so. apply sole_concat. intros r (x & -> & _)%elem_of_list_fmap. apply sole_reads; free.
  - (* to a document *) destruct T as (q1 & q2 & C & P & ->). destruct U as [U I]. so.
    + apply sole_touches. intros l (v & -> & V)%elem_of_list_fmap. rewrite elem_of_list_singleton. intros X. injection X as ->. done.
    + apply sole_changes, C.
    + destruct reader; [|subst; so]. destruct P as (l & [H _] & ->). apply sole_concat. intros r (x & -> & X)%elem_of_list_fmap.
      assert (N : d <> x).
      { apply behind_other. destruct (H x X) as [-> |B]; [apply tc_once, I|eapply tc_l; [exact I|exact B]]. }
      apply sole_reads; free.
  - (* a delegation *) destruct pl; try (eapply orderly_sole; [|exact T]; exact Logic.I).
    destruct T as (q1 & q2 & q3 & S1 & L & S3 & q & P & ->). so. eapply sole_promotes; [|exact P].
    intros x. rewrite !elem_of_cons, elem_of_nil. intuition.
  - (* a revocation *) destruct pl; try (eapply orderly_sole; [|exact T]; exact Logic.I); [|done].
    destruct T as (q1 & S1 & q & q' & P & C & ->). so.
    + eapply sole_promotes; [|exact P]. intros x. rewrite !elem_of_cons, elem_of_nil. intuition.
    + eapply nested_sole; [eapply o_checks; done|]. intros x. rewrite !elem_of_cons, elem_of_nil. intros [-> |[-> |[-> |[]]]]; cbn; lia.
  - (* counts *) destruct T as (is & ds & _ & _ & ->). so.
Qed.
Lemma takes_all_sole cs p : (forall c, c ∈ cs -> unhindered w c) -> takes_all w cs p -> sole [] p.
Proof.
  revert p. induction cs as [|c cs IH]; intros p O T; cbn in T; [subst; constructor|].
  destruct T as (q & r & T & R & ->). apply sole_app; [eapply takes_sole; [apply O; left|done]|].
  apply IH; [|done]. intros d D. apply O. right; done.
Qed.
End alone.

Theorem one_task_returns w cs p : finite_world w -> no_circles w ->
  takes_all w cs p -> (forall c, c ∈ cs -> unhindered w c) -> returns_alone p.
Proof.
  intros [nodes HN] HC T O. apply sole_returns. eapply takes_all_sole; [|exact O|exact T].
  intros a b I. apply (depths w nodes); done.
Qed.

(** Deadlocks of concrete pools. *)
Definition unfinished (t : list lock * prog) : bool := match t.2 with [] => false | _ => true end.
Definition stuckb (P : pool) : bool :=
  existsb unfinished P && forallb (fun n => match fire n P with None => true | Some _ => false end) (seq 0 (length P)).
Lemma stuckb_spec P : stuckb P = true -> deadlocked P.
Proof.
  unfold stuckb. intros [U S]%andb_true_iff. split.
  - intros A. apply existsb_exists in U as (t & I & U). apply elem_of_list_In in I. unfold unfinished in U. rewrite (A t I) in U. done.
  - intros n. destruct (fire n P) as [Q|] eqn:F; [|done]. rewrite forallb_forall in S. specialize (S n). rewrite F in S.
    assert (In n (seq 0 (length P))); [|specialize (S H); done]. apply in_seq.
    unfold fire in F. destruct (P !! n) eqn:L; [|done]. apply lookup_lt_Some in L. lia.
Qed.
Definition stuck_after (ns : list nat) (ps : list prog) : bool :=
  match follow ns (start_all ps) with Some Q => stuckb Q | None => false end.
Definition aloneb (p : prog) : bool :=
  match follow (replicate (length p) 0) (start_all [p]) with Some R => negb (existsb unfinished R) | None => false end.
Lemma aloneb_spec p : aloneb p = true -> returns_alone p.
Proof.
  unfold aloneb. destruct (follow _ _) as [R|] eqn:F; [|done]. intros U. exists (replicate (length p) 0), R. split; [done|].
  intros t I. destruct t.2 eqn:E; [done|]. apply negb_true_iff in U.
  assert (X : existsb unfinished R = true); [|congruence]. apply existsb_exists. exists t. split; [by apply elem_of_list_In|].
  unfold unfinished. rewrite E. done.
Qed.
Lemma show_deadlock w cs ps ns : Forall2 (takes w) cs ps -> forallb aloneb ps = true -> stuck_after ns ps = true -> can_deadlock w cs.
Proof.
  intros F A S. unfold stuck_after in S. destruct (follow ns (start_all ps)) as [Q|] eqn:E; [|done].
  exists ps, ns, Q. split; [done|]. split; [|split; [done|apply stuckb_spec, S]].
  intros p I. apply aloneb_spec. rewrite forallb_forall in A. apply A. apply elem_of_list_In, I.
Qed.
