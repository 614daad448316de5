(** Lemmas for C68. *)
From Coq Require Import Arith Lia.
From stdpp Require Import base list gmap relations.
From Verif Require Import ResModel KeysModel TreeModel OpsModel CgkaModel.
From Verif Require Import AccessModel GroupModel PrekeyModel HiveModel HiveSpec DocModel TeamSpec LackModel LackSpec.

Section lack.
Context (order : gset nat -> list nat) (mentions : nat -> ident -> bool) (horder : gset digest -> list digest) (rorder : gset (member_id * nat) -> list (member_id * nat)).
Notation rcv := (receive_event order mentions do_doc do_ok (doc_receive horder rorder)).
Notation mis := (missing order mentions horder rorder).

Lemma known_agent_has (h : client) i : known_agent h i = true <-> has_agent h i.
Proof.
  unfold known_agent, has_agent, me. rewrite !orb_true_iff, Nat.eqb_eq, !bool_decide_eq_true. tauto.
Qed.
Lemma find_revs_lost revs l s : find_revs revs l = Datatypes.inl s -> s ∈ l /\ revs !! s = None.
Proof.
  induction l as [|a l IH]; cbn; [discriminate|]. destruct (revs !! a) as [r|] eqn:E.
  - destruct (find_revs revs l); [|discriminate]. intros X. injection X as ->. destruct (IH eq_refl). split; [right; assumption|assumption].
  - intros X. injection X as ->. split; [left|exact E].
Qed.
Lemma find_revs_found revs l rs : find_revs revs l = Datatypes.inr rs -> forall s, s ∈ l -> is_Some (revs !! s).
Proof.
  revert rs. induction l as [|a l IH]; cbn; intros rs E s Hs; [inversion Hs|]. destruct (revs !! a) as [r|] eqn:F; [|discriminate].
  destruct (find_revs revs l) as [|rs'] eqn:G; [discriminate|]. apply elem_of_cons in Hs as [-> |Hs]; [eauto|exact (IH rs' eq_refl s Hs)].
Qed.
Lemma resolve_dlg_missing (h : client) x e : resolve_dlg h x = Datatypes.inl e -> member_missing e = true /\ lacks h (EDlg x).
Proof.
  unfold resolve_dlg, find_proof_dlg, lacks. intros R. destruct (sd_proof x) as [s|] eqn:P.
  - destruct (h_dlgs h !! s) as [p|] eqn:D; [|injection R as <-; split; [reflexivity|left; eauto]].
    destruct (known_agent h (sd_delegate x)) eqn:K; cbn [negb] in R; [|injection R as <-; split; [reflexivity|right; left; rewrite <- known_agent_has, K; discriminate]].
    destruct (find_revs (h_revs h) (sd_after x)) as [t|rs] eqn:F; [|discriminate]. injection R as <-. split; [reflexivity|]. right. right. exists t. exact (find_revs_lost _ _ _ F).
  - destruct (known_agent h (sd_delegate x)) eqn:K; cbn [negb] in R; [|injection R as <-; split; [reflexivity|right; left; rewrite <- known_agent_has, K; discriminate]].
    destruct (find_revs (h_revs h) (sd_after x)) as [t|rs] eqn:F; [|discriminate]. injection R as <-. split; [reflexivity|]. right. right. exists t. exact (find_revs_lost _ _ _ F).
Qed.
Lemma resolve_dlg_has (h : client) x d : resolve_dlg h x = Datatypes.inr d -> ~ lacks h (EDlg x).
Proof.
  unfold resolve_dlg, find_proof_dlg, lacks. intros R.
  assert (K : known_agent h (sd_delegate x) = true /\ exists rs, find_revs (h_revs h) (sd_after x) = Datatypes.inr rs).
  { destruct (match sd_proof x with Some s => _ | None => _ end); [discriminate|]. destruct (known_agent h (sd_delegate x)); [|discriminate]. cbn [negb] in R.
    destruct (find_revs (h_revs h) (sd_after x)); [discriminate|]. eauto. }
  destruct K as (K & rs & F). intros [(s & P & D)|[A|(s & Hs & D)]].
  - rewrite P, D in R. discriminate.
  - apply A, known_agent_has, K.
  - destruct (find_revs_found _ _ _ F s Hs) as [r E]. rewrite E in D. discriminate.
Qed.
Lemma resolve_rev_missing (h : client) x e : resolve_rev h x = Datatypes.inl e -> member_missing e = true /\ lacks h (ERev x).
Proof.
  unfold resolve_rev, find_proof_dlg, lacks. intros R. destruct (h_dlgs h !! sr_revoke x) eqn:D; [|injection R as <-; auto].
  destruct (sr_proof x) as [s|]; [|discriminate]. destruct (h_dlgs h !! s) eqn:P; [discriminate|]. injection R as <-. split; [reflexivity|right; eauto].
Qed.
Lemma resolve_rev_has (h : client) x r : resolve_rev h x = Datatypes.inr r -> ~ lacks h (ERev x).
Proof.
  unfold resolve_rev, find_proof_dlg, lacks. intros R. destruct (h_dlgs h !! sr_revoke x) eqn:D; [|discriminate].
  intros [X|(s & P & X)]; [discriminate|]. rewrite P, X in R. discriminate.
Qed.
Lemma missing_dlg h x : sd_ok x = true -> h_dlgs h !! sd_sig x = None -> mis h (EDlg x) = Some true <-> lacks h (EDlg x).
Proof.
  intros Ok New. unfold missing. cbn [receive_event]. unfold receive_dlg. rewrite Ok, New, bool_decide_eq_false_2 by (intros [? X]; discriminate). cbn [negb].
  destruct (resolve_dlg h x) as [e|d] eqn:R.
  - destruct (resolve_dlg_missing h x e R) as [M L]. cbn [snd]. rewrite M. tauto.
  - pose proof (resolve_dlg_has h x d R) as L. split; [|contradiction]. intros X. exfalso. revert X. clear L R.
    repeat match goal with |- context [match ?e with _ => _ end] => lazymatch e with context [match _ with _ => _ end] => fail | _ => destruct e end; cbn [snd member_missing] end; discriminate.
Qed.
Lemma missing_rev h x : sr_ok x = true -> h_revs h !! sr_sig x = None -> mis h (ERev x) = Some true <-> lacks h (ERev x).
Proof.
  intros Ok New. unfold missing. cbn [receive_event]. unfold receive_rev. rewrite Ok, New, bool_decide_eq_false_2 by (intros [? X]; discriminate). cbn [negb].
  destruct (resolve_rev h x) as [e|d] eqn:R.
  - destruct (resolve_rev_missing h x e R) as [M L]. cbn [snd]. rewrite M. tauto.
  - pose proof (resolve_rev_has h x d R) as L. split; [|contradiction]. intros X. exfalso. revert X. clear L R.
    repeat match goal with |- context [match ?e with _ => _ end] => lazymatch e with context [match _ with _ => _ end] => fail | _ => destruct e end; cbn [snd member_missing] end; discriminate.
Qed.

(** ** Operations of a group key *)
Lemma lost_preds g ps : (exists p, p ∈ ps /\ g_ops g !! p = None) -> contains_predecessors g ps = false.
Proof. intros (p & Hp & E). apply bool_decide_eq_false_2. intros F. destruct (F p Hp) as [o X]. rewrite E in X. discriminate. Qed.
Lemma merge_lost c o : g_ops (c_graph c) !! so_hash o = None -> contains_predecessors (c_graph c) (op_preds (so_op o)) = false ->
  (merge_cgka_op horder rorder (Some c) o).2 = Err EOutOfOrderOperation.
Proof.
  intros N P. cbn [merge_cgka_op]. unfold merge_concurrent_operation, contains_op. rewrite N, bool_decide_eq_false_2 by (intros [? X]; discriminate). rewrite P. reflexivity.
Qed.
Lemma merge_none o : op_preds (so_op o) <> ∅ -> exists e, (merge_cgka_op horder rorder None o).2 = Err e /\ cgka_missing e = true.
Proof.
  intros N. cbn [merge_cgka_op]. destruct (so_op o) as [id pk n ps qs|id n ks ps|id path ps]; [|cbn; eauto|cbn; eauto].
  destruct ps; [contradiction N; reflexivity|]. cbn. eauto.
Qed.
Lemma invite_lost c o sk id pk n ps qs : so_op o = CAdd id pk n ps qs -> match c with Some c => contains_predecessors (c_graph c) (op_preds (so_op o)) = false | None => True end ->
  exists e, (merge_cgka_invite_op horder rorder c o sk) = (c, Err e) /\ cgka_missing e = true.
Proof.
  intros E P. unfold merge_cgka_invite_op. rewrite E. destruct c as [c|]; [|eauto]. rewrite E in P. cbn [op_preds] in P. rewrite P. cbn [negb]. eauto.
Qed.
Lemma missing_key h o : do_ok o = true -> is_Some (h_docs h !! do_doc o) -> ~ has_taken h (ECgka o) -> ~ sealed_from h (ECgka o) -> lacks h (ECgka o) -> mis h (ECgka o) = Some true.
Proof.
  intros Ok [g D] New Mine L. cbn [missing]. unfold key_refusal. rewrite Ok, D. cbn [negb].
  cbn [has_taken lacks] in New, L. unfold known_ops in New, L.
  assert (M : exists e, (merge_cgka_op horder rorder (cgka_of h (do_doc o)) (do_op o)).2 = Err e /\ cgka_missing e = true).
  { destruct (cgka_of h (do_doc o)) as [c|].
    - exists EOutOfOrderOperation. split; [|reflexivity]. apply merge_lost; [|apply lost_preds, L]. destruct (g_ops (c_graph c) !! so_hash (do_op o)); [contradiction New; eauto|reflexivity].
    - apply merge_none. destruct L as (p & Hp & _). set_solver. }
  assert (V : forall sk id pk n ps qs, so_op (do_op o) = CAdd id pk n ps qs -> exists e, merge_cgka_invite_op horder rorder (cgka_of h (do_doc o)) (do_op o) sk = (cgka_of h (do_doc o), Err e) /\ cgka_missing e = true).
  { intros sk id pk n ps qs E. apply (invite_lost _ _ _ id pk n ps qs E). destruct (cgka_of h (do_doc o)); [apply lost_preds, L|exact I]. }
  destruct M as (e & M & Me). destruct (so_op (do_op o)) as [id pk n ps qs|id n ks ps|id path ps] eqn:E.
  - destruct (id =? me h) eqn:I1.
    + apply Nat.eqb_eq in I1 as ->. destruct (cs_pairs (h_cg h) !! pk) as [sk|] eqn:S1; [|contradiction Mine; cbn; exists pk, n, ps, qs; rewrite E; auto].
      destruct (V sk _ _ _ _ _ eq_refl) as (e' & -> & Me'). cbn. rewrite Me'. reflexivity.
    + destruct (id =? ks_public (h_keys h)).
      * destruct (V public_secret _ _ _ _ _ eq_refl) as (e' & -> & Me'). cbn. rewrite Me'. reflexivity.
      * rewrite M. cbn. rewrite Me. reflexivity.
  - rewrite M. cbn. rewrite Me. reflexivity.
  - rewrite M. cbn. rewrite Me. reflexivity.
Qed.
(** ** The answer is given exactly when the call fails *)
Lemma refused_some {A} (r : res A) : (exists b, refused r = Some b) <-> match r with Ok _ => false | _ => true end = true.
Proof. destruct r; cbn; split; intros X; try discriminate; try (destruct X; discriminate); eauto. Qed.
Lemma missing_some h x : (exists b, mis h x = Some b) <-> (exists e, (rcv h x).2 = HFail e).
Proof.
  destruct x as [k|o|d|r].
  2: { cbn [missing receive_event]. unfold key_refusal, receive_cgka. destruct (do_ok o); cbn [negb]; [|cbn; split; eauto]. destruct (h_docs h !! do_doc o); [|cbn; split; eauto].
       unfold doc_receive, cgka_of, me. destruct (so_op (do_op o)) as [id pk n ps qs|id n ks ps|id path ps].
       - destruct (id =? ks_active (h_keys h)).
         + destruct (cs_pairs (h_cg h) !! pk); [|cbn; split; eauto]. destruct (merge_cgka_invite_op _ _ _ _ _) as [c r]. destruct r; cbn; split; intros [? X]; try discriminate; eauto.
         + destruct (id =? ks_public (h_keys h)).
           * destruct (merge_cgka_invite_op _ _ _ _ _) as [c r]. destruct r; [|cbn; split; eauto|cbn; split; eauto|cbn; split; eauto].
             destruct (reset_cgka_owner c _) as [c' r']. destruct r'; cbn; split; intros [? X]; try discriminate; eauto.
           * destruct (merge_cgka_op _ _ _ _) as [c r]. destruct r; cbn; split; intros [? X]; try discriminate; eauto.
       - destruct (merge_cgka_op _ _ _ _) as [c r]. destruct r; cbn; split; intros [? X]; try discriminate; eauto.
       - destruct (merge_cgka_op _ _ _ _) as [c r]. destruct r; cbn; split; intros [? X]; try discriminate; eauto. }
  all: unfold missing; destruct (rcv h _).2; split; intros [? X]; try discriminate; eauto.
Qed.
Lemma forged_refused h x : ~ authentic x -> ~ has_taken h x -> mis h x = Some false /\ exists e, rcv h x = (h, HFail e).
Proof.
  intros A N. destruct x as [k|o|d|r]; cbn [authentic] in A.
  - contradiction A. exact I.
  - apply not_true_is_false in A. cbn [missing receive_event]. unfold key_refusal, receive_cgka. rewrite A. cbn. eauto.
  - apply not_true_is_false in A. cbn [has_taken] in N. unfold missing. cbn [receive_event]. unfold receive_dlg. rewrite A, bool_decide_eq_false_2 by exact N. cbn. eauto.
  - apply not_true_is_false in A. cbn [has_taken] in N. unfold missing. cbn [receive_event]. unfold receive_rev. rewrite A, bool_decide_eq_false_2 by exact N. cbn. eauto.
Qed.
End lack.
