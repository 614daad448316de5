(** A client that gets everything backwards: what [ArriveProps] is about happens. *)
From Coq Require Import Arith Lia.
From stdpp Require Import base list gmap relations.
From Verif Require Import AccessModel GroupModel CgkaSpec GroupSpec GroupExamples.
From Verif Require Import ResModel KeysModel TreeModel OpsModel OpsSpec CgkaModel CgkaSpec NetSpec GrowSpec ReadSpec ReadPropsProofs ReadProps EffectSpec.
From Verif Require Import AccessModel GroupModel PrekeyModel HiveModel HiveSpec DocModel TransactModel DocSpec TeamSpec TeamProofs TeamPropsProofs TeamProps.
From Verif Require Import DocProofs DocEffects DocExamples TeamCases ArriveModel ArriveSpec ArriveProofs ArriveProps.
Notation known_ops := TeamSpec.known_ops.
Notation HO := (proj1 c_orders).
Notation HH := (proj1 (proj2 c_orders)).
Notation HR := (proj2 (proj2 c_orders)).

(** Client 4 of [TeamCases] has received the delegations, and no operation of the key of document 9.  Then it is handed all of
    these backwards in two batches, of which the first has the later operations, and each batch is gone through backwards. *)
Definition v_grants : list (sevent dop) := map ev_dlg [g_root; d_root; d_team; g_three; d_four].
Definition v_t : team := team_of (deeds w_t3 (map (DTake 4) v_grants)).
Definition v_h : client := cl v_t 4.
Definition v_ops : list dop := omap (fun x => match x with ECgka o => Some o | _ => None end) w_all.
Definition v_batches : list (list (sevent dop)) := [map ECgka (drop 4 v_ops); map ECgka (take 5 v_ops)].
Definition v_run (bs : list (list (sevent dop))) : option client := ingest_all (c_order 4) mentions do_doc do_ok (doc_receive (c_ho 4) (c_ro 4)) reverse v_h bs.

Definition addressed_b (t : team) (h : client) (x : sevent dop) : bool :=
  match x with
  | ECgka o =>
      do_ok o && bool_decide (tm_ops t (do_doc o) !! so_hash (do_op o) = Some (do_op o)) && match h_docs h !! do_doc o with Some _ => true | None => false end && (do_doc o =? 9) &&
      match so_op (do_op o) with
      | CAdd id pk _ ps _ => (negb (id =? ks_public (h_keys h)) || (pk =? pub public_secret)) &&
          match ps with [] => negb (id =? me h) && negb (id =? ks_public (h_keys h)) | _ => true end
      | _ => true
      end
  | _ => false
  end.
Lemma addressed_ok t h x : orderly (tm_ops t 9) -> addressed_b t h x = true -> addressed t h x.
Proof.
  intros Od B. destruct x as [?|o|?|?]; try discriminate. cbn in B. apply andb_true_iff in B as [B B5]. apply andb_true_iff in B as [B B4]. apply andb_true_iff in B as [B B3]. apply andb_true_iff in B as [B1 B2].
  apply bool_decide_eq_true in B2. apply Nat.eqb_eq in B4. split; [exact B1|]. split; [exact B2|]. split; [destruct (h_docs h !! do_doc o); [eauto|discriminate]|]. split; [rewrite B4; exact Od|].
  intros id pk i ps qs Eo. rewrite Eo in B5. apply andb_true_iff in B5 as [B6 B7]. split.
  - intros ->. rewrite Nat.eqb_refl in B6. cbn in B6. apply Nat.eqb_eq, B6.
  - intros ->. apply andb_true_iff in B7 as [X Y]. apply negb_true_iff, Nat.eqb_neq in X. apply negb_true_iff, Nat.eqb_neq in Y. auto.
Qed.
Definition opens_b (h : client) (o : signed_op) : bool :=
  match so_op o with CAdd id pk _ _ _ => negb (id =? me h) || match cs_pairs (h_cg h) !! pk with Some _ => true | None => false end | _ => true end.
Definition all_open (t : team) (d : ident) (h : client) : bool := forallb (fun p => opens_b h p.2) (map_to_list (tm_ops t d)).
Lemma opens_ok t d h : all_open t d h = true -> forall x o, tm_ops t d !! x = Some o -> opens h o.
Proof.
  unfold all_open. rewrite forallb_forall. intros B x o E id pk i ps qs Eo Em. assert (I1 : In (x, o) (map_to_list (tm_ops t d))) by (apply elem_of_list_In, elem_of_map_to_list, E). apply B in I1. unfold opens_b in I1. cbn [snd] in I1.
  rewrite Eo, Em, Nat.eqb_refl in I1. cbn in I1. destruct (cs_pairs (h_cg h) !! pk); [eauto|discriminate].
Qed.
Definition v_all (t : team) (h : client) (bs : list (list (sevent dop))) : bool := forallb (addressed_b t h) (h_pending h ++ concat bs).
Lemma v_all_ok t h bs : orderly (tm_ops t 9) -> v_all t h bs = true -> forall x, (x ∈ h_pending h \/ exists b, b ∈ bs /\ x ∈ b) -> addressed t h x.
Proof.
  intros Od B x Hx. unfold v_all in B. rewrite forallb_forall in B. apply addressed_ok; [exact Od|]. apply B, in_app_iff. destruct Hx as [Hx|(b & Hb & Hx)]; [left; apply elem_of_list_In, Hx|right; apply in_concat; exists b; split; apply elem_of_list_In; assumption].
Qed.
Definition handed_b (t : team) (d : ident) (bs : list (list (sevent dop))) : bool :=
  forallb (fun p => existsb (fun x => match x with ECgka o => (do_doc o =? d) && bool_decide (do_op o = p.2) | _ => false end) (concat bs)) (map_to_list (tm_ops t d)).
Lemma handed_ok t h d bs : handed_b t d bs = true -> forall x o, tm_ops t d !! x = Some o -> known_ops h d !! x = Some o \/ exists y, (ECgka y ∈ h_pending h \/ exists b, b ∈ bs /\ ECgka y ∈ b) /\ do_doc y = d /\ do_op y = o.
Proof.
  intros B x o E. right. unfold handed_b in B. rewrite forallb_forall in B. specialize (B (x, o)). assert (I1 : In (x, o) (map_to_list (tm_ops t d))) by (apply elem_of_list_In, elem_of_map_to_list, E).
  apply B, existsb_exists in I1 as (y & Hy & X). destruct y as [?|y|?|?]; try discriminate. apply andb_true_iff in X as [X1 X2]. apply Nat.eqb_eq in X1. apply bool_decide_eq_true in X2. exists y. split; [|auto]. right.
  apply in_concat in Hy as (b & Hb & Hy). exists b. split; apply elem_of_list_In; assumption.
Qed.
Lemma v_t_steps : rtc tstep w_t3 v_t.
Proof. apply deeds_go. vm_compute. reflexivity. Qed.
Lemma v_t_reach : treach v_t.
Proof. eapply more; [|exact v_t_steps]. eapply tr_step; [exact w_t2_reach|exact w_t3_step]. Qed.
Lemma v_t_four : tm_clients v_t !! 4 = Some v_h.
Proof. apply cl_some. vm_compute. reflexivity. Qed.
Lemma v_t_orderly : orderly (tm_ops v_t 9).
Proof. apply orderly_b_sound. vm_compute. reflexivity. Qed.
Lemma v_addressed : forall x, (x ∈ h_pending v_h \/ exists b, b ∈ v_batches /\ x ∈ b) -> addressed v_t v_h x.
Proof. apply v_all_ok; [exact v_t_orderly|]. vm_compute. reflexivity. Qed.
Lemma v_handed : forall x o, tm_ops v_t 9 !! x = Some o -> known_ops v_h 9 !! x = Some o \/ exists y, (ECgka y ∈ h_pending v_h \/ exists b, b ∈ v_batches /\ ECgka y ∈ b) /\ do_doc y = 9 /\ do_op y = o.
Proof. apply handed_ok. vm_compute. reflexivity. Qed.
Lemma v_reverse : forall l : list (sevent dop), reverse l ≡ₚ l.
Proof. intros l. apply reverse_Permutation. Qed.
Lemma v_batches_some : v_batches <> [].
Proof. discriminate. Qed.
(** The hypotheses of [C59_any_order], [C59_catch_up] and [C59_one_roster] hold; after the first batch nothing is known and all of it is kept. *)
Definition v_sizes (x : option client) : option (nat * nat) := match x with Some h => Some (size (known_ops h 9), length (h_pending h)) | None => None end.
Example C59_case : treach v_t /\ tm_clients v_t !! 4 = Some v_h /\ (forall l : list (sevent dop), reverse l ≡ₚ l) /\ v_batches <> [] /\
  (forall x, (x ∈ h_pending v_h \/ exists b, b ∈ v_batches /\ x ∈ b) -> addressed v_t v_h x) /\ orderly (tm_ops v_t 9) /\
  (forall x o, tm_ops v_t 9 !! x = Some o -> known_ops v_h 9 !! x = Some o \/ exists y, (ECgka y ∈ h_pending v_h \/ exists b, b ∈ v_batches /\ ECgka y ∈ b) /\ do_doc y = 9 /\ do_op y = o) /\
  (forall x o, tm_ops v_t 9 !! x = Some o -> opens v_h o) /\ known_ops v_h 9 = ∅ /\ size (tm_ops v_t 9) = 9 /\ v_sizes (v_run (take 1 v_batches)) = Some (0, 5) /\ v_sizes (v_run v_batches) = Some (9, 0).
Proof.
  split; [exact v_t_reach|]. split; [exact v_t_four|]. split; [exact v_reverse|]. split; [exact v_batches_some|]. split; [exact v_addressed|]. split; [exact v_t_orderly|]. split; [exact v_handed|]. split; [apply opens_ok; vm_compute; reflexivity|].
  split; [apply map_size_empty_iff; vm_compute; reflexivity|]. split; [vm_compute; reflexivity|]. split; vm_compute; reflexivity.
Qed.
(** The content that client 1 sealed is read. *)
Lemma got_client (x : option client) (f : client -> bool) : match x with Some h => f h | None => false end = true -> exists h, x = Some h /\ f h = true.
Proof. destruct x; [eauto|discriminate]. Qed.
Definition v_read (h : client) : bool := bool_decide ((hive_decrypt (c_ro 4) h 9 w_msg).2 = Some [42]) && match cgka_of h 9 with Some c => (c_owner c =? 4) && holds_b (known_ops h 9) c | None => false end.
Example C59_reads_case : exists g', v_run v_batches = Some g' /\ in_key w_rev.1 9 4 /\ (exists c, cgka_of g' 9 = Some c /\ c_owner c = 4 /\ holds_own (known_ops g' 9) c) /\ (hive_decrypt (c_ro 4) g' 9 w_msg).2 = Some [42].
Proof.
  destruct (got_client (v_run v_batches) v_read) as (g' & Q & B); [vm_compute; reflexivity|]. unfold v_read in B. apply andb_true_iff in B as [B1 B2]. apply bool_decide_eq_true in B1. exists g'. split; [exact Q|]. split; [apply keyed_in; vm_compute; reflexivity|]. split; [|exact B1].
  destruct (cgka_of g' 9) as [c|]; [|discriminate]. apply andb_true_iff in B2 as [B2 B3]. apply Nat.eqb_eq in B2. apply holds_b_sound in B3. eauto.
Qed.

(** ** Two devices of 4: client 5 has none of the secrets.  It is handed everything backwards, keeps what follows its addition, and
    takes it when it gets the secrets of client 4. *)
Definition u_five : client := put_cg (start 4) (Cgs ∅ ∅).
Definition u_start : team := Team (list_to_map [(1, start 1); (3, start 3); (4, start 4); (5, u_five)]) (fun _ => ∅) [].
Definition u_batches : list (list (sevent dop)) := map (fun o => [ECgka o]) (reverse (take 8 v_ops)).
Definition u_t : team := team_of (deeds u_start (w_base ++ [DAdd 1 9 4 Read 94 70; DRevoke 1 7 3 [98; 99; 100] 80] ++ map (DTake 5) v_grants)).
Definition u_h : client := cl u_t 5.
Definition u_run (h : client) : option client := ingest_all (c_order 5) mentions do_doc do_ok (doc_receive (c_ho 5) (c_ro 5)) reverse h u_batches.
Definition u_got : client := match u_run u_h with Some h => h | None => u_h end.
Definition u_t1 : team := went u_t 5 u_got.
Lemma u_start_reach : treach u_start.
Proof.
  apply tr_start; [|reflexivity|reflexivity]. intros r h E. cbn [u_start tm_clients] in E. apply elem_of_list_to_map_2 in E.
  apply elem_of_cons in E as [E|E]; [apply pair_equal_spec in E as [_ ->]; apply start_ok|]. apply elem_of_cons in E as [E|E]; [apply pair_equal_spec in E as [_ ->]; apply start_ok|].
  apply elem_of_cons in E as [E|E]; [apply pair_equal_spec in E as [_ ->]; apply start_ok|]. apply elem_of_list_singleton in E. apply pair_equal_spec in E as [_ ->]. do 3 (split; [reflexivity|]). intros p s X. cbn in X. rewrite lookup_empty in X. discriminate.
Qed.
Lemma u_t_reach : treach u_t.
Proof. eapply more; [exact u_start_reach|]. apply deeds_go. vm_compute. reflexivity. Qed.
Lemma u_t_five : tm_clients u_t !! 5 = Some u_h.
Proof. apply cl_some. vm_compute. reflexivity. Qed.
Lemma u_t_four : tm_clients u_t !! 4 = Some (cl u_t 4).
Proof. apply cl_some. vm_compute. reflexivity. Qed.
Lemma u_t_orderly : orderly (tm_ops u_t 9).
Proof. apply orderly_b_sound. vm_compute. reflexivity. Qed.
Lemma u_addressed : forall x, (x ∈ h_pending u_h \/ exists b, b ∈ u_batches /\ x ∈ b) -> addressed u_t u_h x.
Proof. apply v_all_ok; [exact u_t_orderly|]. vm_compute. reflexivity. Qed.
Definition u_imports (h : client) : option (client * list (sevent dop)) := import_secrets (c_order 5) mentions (c_ho 5) (c_ro 5) reverse h (export_secrets (cl u_t 4)).
Definition u_late : option client := match u_imports u_got with Some (h, _) => Some h | None => None end.
(** The hypotheses of [C60_late] hold. *)
Example C60_late_case : treach u_t /\ tm_clients u_t !! 5 = Some u_h /\ good_sks (export_secrets (cl u_t 4)) /\ (forall l : list (sevent dop), reverse l ≡ₚ l) /\ u_batches <> [] /\
  (forall x, x ∈ h_pending u_h \/ (exists b, b ∈ u_batches /\ x ∈ b) -> addressed u_t u_h x) /\
  v_sizes (u_run u_h) = Some (6, 2) /\ v_sizes (u_run (more_secrets u_h (export_secrets (cl u_t 4)))) = Some (8, 0) /\ v_sizes u_late = Some (8, 0) /\ size (tm_ops u_t 9) = 8.
Proof.
  split; [exact u_t_reach|]. split; [exact u_t_five|]. split; [exact (proj2 (team_reachable_good c_order c_ho c_ro c_pick mentions HO HH HR u_t u_t_reach) _ _ u_t_four)|]. split; [exact v_reverse|].
  split; [intros X; apply (f_equal length) in X; vm_compute in X; discriminate|]. split; [exact u_addressed|]. split; [vm_compute; reflexivity|]. split; [vm_compute; reflexivity|]. split; vm_compute; reflexivity.
Qed.
(** The hypotheses of [C60_import] and [C60_second_device] hold when everything is waiting. *)
Definition u_wait : client := put_pending u_h (map ECgka (take 8 v_ops)).
Definition u_t2 : team := went u_t 5 u_wait.
Lemma u_t2_reach : treach u_t2.
Proof. eapply tr_step; [exact u_t_reach|]. apply ts_pending, u_t_five. Qed.
Definition pend_b (t : team) (d : ident) (h : client) : bool :=
  forallb (fun p => existsb (fun x => match x with ECgka o => (do_doc o =? d) && bool_decide (do_op o = p.2) | _ => false end) (h_pending h)) (map_to_list (tm_ops t d)).
Lemma pend_ok t h d : pend_b t d h = true -> forall x o, tm_ops t d !! x = Some o -> known_ops h d !! x = Some o \/ exists y, ECgka y ∈ h_pending h /\ do_doc y = d /\ do_op y = o.
Proof.
  intros B x o E. right. unfold pend_b in B. rewrite forallb_forall in B. specialize (B (x, o)). assert (I1 : In (x, o) (map_to_list (tm_ops t d))) by (apply elem_of_list_In, elem_of_map_to_list, E).
  apply B, existsb_exists in I1 as (y & Hy & X). destruct y as [?|y|?|?]; try discriminate. apply andb_true_iff in X as [X1 X2]. apply Nat.eqb_eq in X1. apply bool_decide_eq_true in X2. exists y. split; [apply elem_of_list_In, Hy|auto].
Qed.
Example C60_second_device_case : treach u_t2 /\ tm_clients u_t2 !! 5 = Some u_wait /\ tm_clients u_t2 !! 4 = Some (cl u_t 4) /\ me (cl u_t 4) = me u_wait /\
  (forall x, x ∈ h_pending u_wait -> addressed u_t2 u_wait x) /\
  (forall x o, tm_ops u_t2 9 !! x = Some o -> known_ops u_wait 9 !! x = Some o \/ exists y, ECgka y ∈ h_pending u_wait /\ do_doc y = 9 /\ do_op y = o) /\
  (forall x o, tm_ops u_t2 9 !! x = Some o -> opens (cl u_t 4) o) /\ orderly (tm_ops u_t2 9) /\ size (tm_ops u_t2 9) = 8 /\ opens_b u_wait (do_op (nth 6 v_ops (DOp 0 0 false (SignedOp 0 (CRemove 0 0 [] []))))) = false.
Proof.
  split; [exact u_t2_reach|]. split; [apply lookup_insert|]. split; [unfold u_t2, went; cbn [tm_clients]; rewrite lookup_insert_ne by discriminate; exact u_t_four|]. split; [vm_compute; reflexivity|].
  assert (Od : orderly (tm_ops u_t2 9)) by (apply orderly_b_sound; vm_compute; reflexivity).
  split; [intros x Hx; apply (v_all_ok u_t2 u_wait [] Od); [vm_compute; reflexivity|left; exact Hx]|]. split; [apply pend_ok; vm_compute; reflexivity|]. split; [apply opens_ok; vm_compute; reflexivity|]. split; [exact Od|]. split; vm_compute; reflexivity.
Qed.
