(** A concrete team: what [TeamProps] is about happens. *)
From Coq Require Import Arith Lia.
From stdpp Require Import base list gmap relations.
From Verif Require Import AccessModel GroupModel CgkaSpec GroupSpec GroupExamples.
From Verif Require Import ResModel KeysModel TreeModel OpsModel OpsSpec CgkaModel CgkaSpec NetSpec SecrecySpec TurnSecretSpec
  GrowSpec ReadSpec ReadPropsProofs ReadProps ShutSpec ShutPropsProofs ShutProps EffectSpec EffectPropsProofs AudienceProofs.
From Verif Require Import AccessModel GroupModel PrekeyModel HiveModel HiveSpec DocModel TransactModel DocSpec TeamSpec TeamProofs TeamEffects TeamPropsProofs TeamProps.
From Verif Require Import DocProofs DocEffects DocExamples.
From Verif Require DocProps.
Notation genuine := TeamSpec.genuine.
Notation known_ops := TeamSpec.known_ops.

Definition c_order (_ : nat) := asc.
Definition c_ho (_ : nat) := hord.
Definition c_ro (_ : nat) := rord.
Definition c_pick (_ : nat) (_ : client) := pk.
Notation treach := (team_reachable c_order c_ho c_ro c_pick mentions).
Notation tstep := (team_step c_order c_ho c_ro c_pick mentions).

(** ** Running clients *)
Definition at9 (n : nat) (d : ident) : list digest := if d =? 9 then seq n 10 else [].
Inductive deed :=
| DGroup (r : nat) (i : ident) (parents : list (ident * nat))
| DDoc (r : nat) (i : ident) (parents : list (ident * nat)) (sk h0 : nat) (hs : list digest) (hu : digest) (rng : list secret_key)
| DAdd (r : nat) (i who : ident) (can : access) (s n : nat)
| DRevoke (r : nat) (i target : ident) (sigs : list nat) (n : nat)
| DUpdate (r : nat) (sk x : nat) (rng : list secret_key)
| DTake (r : nat) (x : sevent dop).
Definition doer (a : deed) : nat := match a with DGroup r _ _ | DDoc r _ _ _ _ _ _ _ | DAdd r _ _ _ _ _ | DRevoke r _ _ _ _ | DUpdate r _ _ _ | DTake r _ => r end.
Definition eff (a : deed) (h : client) : client :=
  match a with
  | DGroup _ i parents => (gg h i parents 0).1
  | DDoc _ i parents sk h0 hs hu rng => (gen h i parents 0 sk h0 hs hu rng).1
  | DAdd _ i who can s n => (addm h i who can 0 s (at9 n)).1
  | DRevoke _ i target sigs n => (revm h i target false 0 sigs (at9 n)).1
  | DUpdate _ sk x rng => (upd h 9 sk x rng).1
  | DTake _ x => take1 h x
  end.
Definition new9 (t : team) (n : nat) : bool := forallb (fun x => match tm_ops t 9 !! x with None => true | Some _ => false end) (seq n 10).
Definition made_b (t : team) (h : client) (x : sevent dop) : bool :=
  match x with
  | ECgka o => bool_decide (tm_ops t (do_doc o) !! so_hash (do_op o) = Some (do_op o)) &&
      match so_op (do_op o) with CAdd id k _ _ _ => negb (id =? ks_public (h_keys h)) || (k =? pub public_secret) | _ => true end
  | _ => true
  end.
Definition allowed (t : team) (h : client) (a : deed) : bool :=
  match a with
  | DDoc _ i _ _ h0 hs hu _ => match map_to_list (tm_ops t i) with [] => true | _ => false end && bool_decide (NoDup (h0 :: hs ++ [hu]))
  | DAdd _ _ _ _ _ n | DRevoke _ _ _ _ n => new9 t n
  | DUpdate _ _ x _ => match tm_ops t 9 !! x with None => true | Some _ => false end
  | DTake _ x => made_b t h x
  | DGroup _ _ _ => true
  end.
Definition deed1 (t : team) (a : deed) : option team :=
  match tm_clients t !! doer a with Some h => if allowed t h a then Some (went t (doer a) (eff a h)) else None | None => None end.
Fixpoint deeds (t : team) (l : list deed) : option team := match l with [] => Some t | a :: l => match deed1 t a with Some t => deeds t l | None => None end end.
Definition team_of (x : option team) : team := match x with Some t => t | None => Team ∅ (fun _ => ∅) [] end.
Definition cl (t : team) (r : nat) : client := match tm_clients t !! r with Some h => h | None => start 0 end.

Lemma new9_ok t n : new9 t n = true -> forall d, unseen t d (at9 n d).
Proof.
  intros B d. unfold at9. destruct (Nat.eqb_spec d 9) as [->|N]; [|split; [constructor|]; intros x Hx; inversion Hx]. split; [apply NoDup_seq|]. unfold new9 in B. rewrite forallb_forall in B.
  intros x Hx. apply elem_of_list_In in Hx. specialize (B x Hx). destruct (tm_ops t 9 !! x); [discriminate|reflexivity].
Qed.
Lemma made_b_ok t h x : made_b t h x = true -> genuine t h x.
Proof.
  destruct x as [|o| |]; try exact (fun _ => I). cbn. intros B _. apply andb_true_iff in B as [B1 B2]. apply bool_decide_eq_true in B1. split; [exact B1|].
  intros k i ps qs Eo. rewrite Eo, Nat.eqb_refl in B2. cbn in B2. apply Nat.eqb_eq in B2. exact B2.
Qed.
Lemma deed1_step t a t' : deed1 t a = Some t' -> tstep t t'.
Proof.
  unfold deed1. destruct (tm_clients t !! doer a) as [h|] eqn:E; [|discriminate]. destruct (allowed t h a) eqn:A; [|discriminate]. intros [= <-]. destruct a as [r i parents|r i parents sk h0 hs hu rng|r i who can s n|r i target sigs n|r sk x rng|r x]; cbn [doer eff allowed] in *.
  - eapply ts_group; [exact E|apply surjective_pairing].
  - apply andb_true_iff in A as [Z ND]. apply bool_decide_eq_true in ND. eapply ts_doc; [exact E| |exact ND|apply surjective_pairing]. destruct (map_to_list (tm_ops t i)) eqn:M; [|discriminate]. apply map_to_list_empty_iff, M.
  - eapply ts_add; [exact E|apply (new9_ok _ _ A)|apply surjective_pairing].
  - eapply ts_revoke; [exact E|apply (new9_ok _ _ A)|apply surjective_pairing].
  - eapply ts_update; [exact E| |apply surjective_pairing]. destruct (tm_ops t 9 !! x); [discriminate|reflexivity].
  - eapply ts_receive; [exact E|apply made_b_ok, A|apply surjective_pairing].
Qed.
Lemma deeds_steps l : forall t t', deeds t l = Some t' -> rtc tstep t t'.
Proof.
  induction l as [|a l IH]; intros t t'; cbn [deeds]; [intros [= <-]; constructor|]. destruct (deed1 t a) as [t1|] eqn:E; [|discriminate]. intros Q. eapply rtc_l; [eapply deed1_step; exact E|apply IH; exact Q].
Qed.
Lemma deeds_go t l : (match deeds t l with Some _ => true | None => false end) = true -> rtc tstep t (team_of (deeds t l)).
Proof. destruct (deeds t l) as [t'|] eqn:E; [|discriminate]. intros _. apply (deeds_steps l), E. Qed.
Lemma more t t' : treach t -> rtc tstep t t' -> treach t'.
Proof. intros R S. induction S as [|a b c S _ IH]; [exact R|]. apply IH. eapply tr_step; [exact R|exact S]. Qed.
Lemma cl_some t r : (match tm_clients t !! r with Some _ => true | None => false end) = true -> tm_clients t !! r = Some (cl t r).
Proof. unfold cl. destruct (tm_clients t !! r); [reflexivity|discriminate]. Qed.
(** What one client did. *)
Definition own (r : nat) (l : list deed) (h : client) : client := foldl (fun h a => if doer a =? r then eff a h else h) h l.
Lemma deeds_own r l : forall t t', deeds t l = Some t' -> cl t' r = own r l (cl t r).
Proof.
  induction l as [|a l IH]; intros t t'; cbn [deeds]; [intros [= <-]; reflexivity|]. destruct (deed1 t a) as [t1|] eqn:E; [|discriminate]. intros Q. rewrite (IH _ _ Q). unfold own. cbn [foldl]. f_equal.
  unfold deed1 in E. destruct (tm_clients t !! doer a) as [h|] eqn:Eh; [|discriminate]. destruct (allowed t h a); [|discriminate]. injection E as <-. unfold cl, went. cbn [tm_clients].
  destruct (Nat.eqb_spec (doer a) r) as [Ed|N]; [subst r; rewrite lookup_insert, Eh; reflexivity|rewrite lookup_insert_ne by exact N; reflexivity].
Qed.
Lemma own_go t l r : (match deeds t l with Some _ => true | None => false end) = true -> cl (team_of (deeds t l)) r = own r l (cl t r).
Proof. destruct (deeds t l) as [t'|] eqn:E; [|discriminate]. intros _. exact (deeds_own r l t t' E). Qed.
Lemma take_core h o : core h (take1 h (ECgka o)).
Proof.
  unfold take1. cbn [receive_event]. unfold receive_cgka. destruct (negb (do_ok o)); [apply core_refl|]. destruct (h_docs h !! do_doc o); [|apply core_refl]. destruct (doc_receive _ _ _ _ _). split; [reflexivity|]. split; reflexivity.
Qed.
Lemma upd_core h sk x rng : core h (upd h 9 sk x rng).1.
Proof. unfold hive_update. destruct (cgka_of h 9) as [c|]; [|apply core_refl]. destruct (cgka_update _ _ _ _ _ _) as [c' z]. apply put_cgka_core. Qed.

(** ** Clients 1, 3 and 4.  Client 1 makes group 7 and document 9, and adds 3 to the group.  Clients 1 and
    3 update at the same time and receive each other's updates. *)
Definition ev_dlg (d : dlg) : sevent dop := EDlg (SDlg (d_sig d) (d_issuer d) (d_delegate d) (d_can d) (d_sig <$> d_proof d) [] 0 true).
Definition w_doc := gen m1 9 [(1, 91); (7, 92)] 0 40 1 (seq 2 10) 15 (seq 50 10).
Definition w_three := addm m2 7 3 Read 0 93 (at9 20).
Definition w_news : list (sevent dop) := map ev_dlg [g_root; d_root; d_team; g_three] ++ map ECgka (news (fun x => x) w_doc.2 ++ news snd w_three.2).
Definition w_one := upd w_three.1 9 41 61 (seq 230 20).
Definition w_upd3 := upd (take_all (start 3) w_news) 9 43 60 (seq 200 20).
Definition w_base : list deed := [DGroup 1 7 [(1, 90)]; DDoc 1 9 [(1, 91); (7, 92)] 40 1 (seq 2 10) 15 (seq 50 10); DAdd 1 7 3 Read 93 20] ++ map (DTake 3) w_news ++
  [DUpdate 1 41 61 (seq 230 20); DUpdate 3 43 60 (seq 200 20)] ++ map (fun o => DTake 1 (ECgka o)) (news (fun x => [x]) w_upd3.2) ++ map (fun o => DTake 3 (ECgka o)) (news (fun x => [x]) w_one.2).
Definition w_start : team := Team (list_to_map [(1, start 1); (3, start 3); (4, start 4)]) (fun _ => ∅) [].
Definition w_ready : team := team_of (deeds w_start w_base).

Lemma start_ok i : h_groups (start i) = ∅ /\ h_docs (start i) = ∅ /\ cs_docs (h_cg (start i)) = ∅ /\ good_sks (cs_pairs (h_cg (start i))).
Proof. do 3 (split; [reflexivity|]). intros p s. cbn [start h_cg cs_pairs]. rewrite lookup_singleton_Some. intros [<- <-]. reflexivity. Qed.
Lemma w_start_reach : treach w_start.
Proof.
  apply tr_start; [|reflexivity|reflexivity]. intros r h E. cbn [w_start tm_clients] in E. apply elem_of_list_to_map_2 in E.
  apply elem_of_cons in E as [E|E]; [apply pair_equal_spec in E as [_ ->]; apply start_ok|]. apply elem_of_cons in E as [E|E]; [apply pair_equal_spec in E as [_ ->]; apply start_ok|].
  apply elem_of_list_singleton in E. apply pair_equal_spec in E as [_ ->]. apply start_ok.
Qed.
Lemma w_ready_steps : rtc tstep w_start w_ready.
Proof. apply deeds_go. vm_compute. reflexivity. Qed.
Lemma w_ready_reach : treach w_ready.
Proof. exact (more _ _ w_start_reach w_ready_steps). Qed.
Lemma w_three_managed : man w_three.1.
Proof.
  destruct (got_1 w_three.2 g_three) as (ops & E); [vm_compute; reflexivity|].
  eapply (mg_add _ _ _ _ _ m2 7 3 Read 0 93 (at9 20) _ g_three ops).
  - exact m2_managed.
  - reflexivity.
  - intros [g X]. vm_compute in X. discriminate.
  - apply pair_2. exact E.
  - do 3 right. left.
  - apply joined_ok. sets.
Qed.
Definition w_got3 : list dop := news (fun x => [x]) w_upd3.2.
Lemma own_takes l h : own 1 (map (fun o => DTake 1 (ECgka o)) l) h = take_all h (map ECgka l).
Proof. revert h. induction l as [|o l IH]; intros h; [reflexivity|]. cbn [map]. unfold own. cbn [foldl doer eff]. rewrite Nat.eqb_refl. apply IH. Qed.
Lemma own_other r r' l h : r <> r' -> own r (map (DTake r') l) h = h.
Proof. intros N. revert h. induction l as [|o l IH]; intros h; [reflexivity|]. cbn [map]. unfold own. cbn [foldl doer eff]. destruct (Nat.eqb_spec r' r); [congruence|]. apply IH. Qed.
Lemma own_app r l l' h : own r (l ++ l') h = own r l' (own r l h).
Proof. unfold own. apply foldl_app. Qed.
Lemma take_all_core l h : core h (take_all h (map ECgka l)).
Proof. revert h. induction l as [|o l IH]; intros h; [apply core_refl|]. cbn [map]. unfold take_all. cbn [foldl]. eapply core_trans; [apply take_core|apply IH]. Qed.
Lemma w_one_core : core w_three.1 w_one.1.
Proof. unfold w_one. exact (upd_core w_three.1 41 61 (seq 230 20)). Qed.
Lemma w_ready_own : cl w_ready 1 = take_all w_one.1 (map ECgka w_got3).
Proof.
  unfold w_ready. rewrite (own_go w_start w_base 1) by (vm_compute; reflexivity). unfold w_base. rewrite !own_app, (own_other 1 3) by discriminate.
  assert (Z : forall l h, own 1 (map (fun o => DTake 3 (ECgka o)) l) h = h).
  { intros l h. rewrite <- (map_map ECgka (DTake 3)). apply own_other. discriminate. }
  rewrite Z, own_takes. assert (S1 : cl w_start 1 = start 1) by reflexivity. rewrite S1. unfold own. cbn [foldl doer eff Nat.eqb]. unfold w_one, w_three, m2, m1, m0, w_got3. reflexivity.
Qed.
Lemma w_ready_client : core w_three.1 (cl w_ready 1).
Proof. rewrite w_ready_own. exact (core_trans _ _ _ w_one_core (take_all_core w_got3 w_one.1)). Qed.
Lemma w_ready_tidy : tidy asc Said (cl w_ready 1).
Proof. eapply core_tidy; [exact w_ready_client|]. apply man_tidy, w_three_managed. Qed.

(** Client 1 adds 4 to the document, removes 3 from the group, and seals content. *)
Definition w_add := addm (cl w_ready 1) 9 4 Read 0 94 (at9 70).
Definition w_t1 : team := went w_ready 1 w_add.1.
Definition w_rev := revm w_add.1 7 3 false 0 [98; 99; 100] (at9 80).
Definition w_t2 : team := went w_t1 1 w_rev.1.
Definition w_seal := enc w_rev.1 9 1 [42] [] 45 95 (seq 270 20).
Definition no_content : encrypted_content := app_encrypt no_secret [].

Definition w_msg : encrypted_content := match w_seal.2 with DOk (e, _) => e | DErr _ => no_content end.
Definition w_t3 : team := wrote (went w_t2 1 w_seal.1) 9 w_msg.

Definition w_all : list (sevent dop) := w_news ++ [ev_dlg d_four] ++
  map ECgka (news (fun x => [x]) w_one.2 ++ w_got3 ++ news snd w_add.2 ++ news snd w_rev.2 ++ news (fun x => option_list x.2) w_seal.2).
Definition w_t4 : team := team_of (deeds w_t3 (map (DTake 4) w_all)).

Lemma c_orders : (forall r, some_order (c_order r)) /\ (forall r, some_order (c_ho r)) /\ forall r, some_order (c_ro r).
Proof. split; [intros r; exact asc_some|]. split; intros r s; reflexivity. Qed.
Notation HO := (proj1 c_orders).
Notation HH := (proj1 (proj2 c_orders)).
Notation HR := (proj2 (proj2 c_orders)).

(** The additions of [C56_add]: 4 has no place before and has one afterwards. *)
Lemma w_add_done : exists ops, w_add = (w_add.1, DOk (d_four, ops)).
Proof. destruct (got_1 w_add.2 d_four) as (ops & E); [vm_compute; reflexivity|]. exists ops. apply pair_2, E. Qed.
Lemma w_ready_one : tm_clients w_ready !! 1 = Some (cl w_ready 1).
Proof. apply cl_some. vm_compute. reflexivity. Qed.
Lemma w_ready_new : forall j, unseen w_ready j (at9 70 j).
Proof. apply new9_ok. vm_compute. reflexivity. Qed.
Lemma w_four_said : Said (MD d_four).
Proof. do 4 right. left. Qed.
Example C56_add_case : exists ops, treach w_ready /\ well_signed Said /\ tidy (c_order 1) Said (cl w_ready 1) /\ tm_clients w_ready !! 1 = Some (cl w_ready 1) /\
  (forall j, unseen w_ready j (at9 70 j)) /\ hive_add_member (c_order 1) (c_ho 1) (c_ro 1) (c_pick 1 (cl w_ready 1)) (cl w_ready 1) 9 4 Read 0 94 (at9 70) = (w_add.1, DOk (d_four, ops)) /\ Said (MD d_four) /\
  is_Some (h_docs (cl w_ready 1) !! 9) /\ orderly (tm_ops w_t1 9) /\ size (tm_ops w_ready 9) = 6 /\
  in_key (cl w_ready 1) 9 3 /\ ~ in_key (cl w_ready 1) 9 4 /\ in_key w_add.1 9 3 /\ in_key w_add.1 9 4.
Proof.
  destruct w_add_done as [ops Q]. exists ops. split; [exact w_ready_reach|]. split; [exact said_signed|]. split; [exact w_ready_tidy|]. split; [exact w_ready_one|]. split; [exact w_ready_new|].
  split; [exact Q|]. split; [exact w_four_said|]. split; [apply (bool_decide_unpack _); vm_compute; exact I|]. split; [apply orderly_b_sound; vm_compute; reflexivity|]. split; [vm_compute; reflexivity|].
  split; [apply keyed_in; vm_compute; reflexivity|]. split; [intros X; apply keyed_in in X; vm_compute in X; discriminate|]. split; apply keyed_in; vm_compute; reflexivity.
Qed.

(** 3 is revoked and locked out. *)
Lemma w_t1_reach : treach w_t1.
Proof. destruct w_add_done as [ops Q]. eapply tr_step; [exact w_ready_reach|]. exact (ts_add c_order c_ho c_ro c_pick mentions w_ready 1 (cl w_ready 1) 9 4 Read 0 94 (at9 70) w_add.1 (DOk (d_four, ops)) w_ready_one w_ready_new Q). Qed.
Lemma w_t1_tidy : tidy asc Said w_add.1.
Proof. destruct w_add_done as [ops Q]. exact (proj1 (DocProps.C46_add asc hord rord pk Said (cl w_ready 1) 9 4 Read 0 94 (at9 70) w_add.1 d_four ops asc_some said_signed w_ready_tidy Q w_four_said)). Qed.
Lemma w_rev_done : exists ops, w_rev = (w_rev.1, DOk ([r_three], [], ops)).
Proof. destruct (got_1 w_rev.2 ([r_three], [])) as (ops & E); [vm_compute; reflexivity|]. exists ops. apply pair_2, E. Qed.
Lemma w_t1_one : tm_clients w_t1 !! 1 = Some w_add.1.
Proof. apply lookup_insert. Qed.
Lemma w_t1_new : forall j, unseen w_t1 j (at9 80 j).
Proof. apply new9_ok. vm_compute. reflexivity. Qed.
Lemma w_t2_reach : treach w_t2.
Proof. destruct w_rev_done as [ops Q]. eapply tr_step; [exact w_t1_reach|]. exact (ts_revoke c_order c_ho c_ro c_pick mentions w_t1 1 w_add.1 7 3 false 0 [98; 99; 100] (at9 80) w_rev.1 (DOk ([r_three], [], ops)) w_t1_one w_t1_new Q). Qed.
Lemma w_seal_done : exists o, w_seal = (w_seal.1, DOk (w_msg, o)).
Proof.
  assert (B : okb w_seal.2 = true) by (vm_compute; reflexivity). unfold w_msg. destruct w_seal as [h x]. cbn [fst snd] in *. destruct x as [[e o]|z]; [|discriminate]. exists o. reflexivity.
Qed.
Lemma w_t2_one : tm_clients w_t2 !! 1 = Some w_rev.1.
Proof. apply lookup_insert. Qed.
Lemma w_t2_new : tm_ops w_t2 9 !! 95 = None.
Proof. vm_compute. reflexivity. Qed.
Lemma w_t3_step : tstep w_t2 w_t3.
Proof. destruct w_seal_done as [o Q]. exact (ts_encrypt c_order c_ho c_ro c_pick mentions w_t2 1 w_rev.1 9 1 [42] [] 45 95 (seq 270 20) w_seal.1 w_msg o w_t2_one w_t2_new Q). Qed.
Lemma w_t4_steps : rtc tstep w_t3 w_t4.
Proof. apply deeds_go. vm_compute. reflexivity. Qed.
Lemma w_t4_orderly : orderly (tm_ops w_t4 9).
Proof. apply orderly_b_sound. vm_compute. reflexivity. Qed.
Lemma w_t4_fresh : fresh_secrets (tm_ops w_t4 9).
Proof. apply fresh_secrets_b_sound. vm_compute. reflexivity. Qed.
Definition w_keys3 (k : secret_key) : Prop := k ∈ secrets_about (tm_ops w_t4 9) [3].
Lemma w_keys3_only : only_of (tm_ops w_t4 9) 3 w_keys3.
Proof.
  intros k x p Hs Ex Hp. assert (Qa : about (so_op p) ∈ [3]); [|apply elem_of_list_singleton in Qa; exact Qa]. revert k x p Hs Ex Hp. apply apart_b_sound. vm_compute. reflexivity.
Qed.
Lemma w_msg_there : (9, w_msg) ∈ tm_cts w_t4.
Proof.
  assert (H : forall a b, rtc tstep a b -> forall x, x ∈ tm_cts a -> x ∈ tm_cts b).
  { intros a b S. induction S as [|a b c S _ IH]; [auto|]. intros x Hx. apply IH. destruct S; cbn [tm_cts went wrote]; try exact Hx. right. exact Hx. }
  eapply H; [exact w_t4_steps|]. left.
Qed.
Example C56_revoke_case : exists ops, treach w_t1 /\ well_signed Said /\ tidy (c_order 1) Said w_add.1 /\ tm_clients w_t1 !! 1 = Some w_add.1 /\ (forall j, unseen w_t1 j (at9 80 j)) /\
  hive_revoke_member (c_order 1) (c_ho 1) (c_ro 1) w_add.1 7 3 false 0 [98; 99; 100] (at9 80) = (w_rev.1, DOk ([r_three], [], ops)) /\
  is_Some (h_docs w_add.1 !! 9) /\ in_key w_add.1 9 9 /\ is_Some (h_groups w_add.1 !! 7) /\ belongs (h_env w_rev.1) 9 7 /\ direct (h_env w_add.1) 7 3 /\ stands_for (h_env w_add.1) 3 3 /\
  ~ person_of (h_env w_rev.1) 9 3 /\ rtc tstep w_t2 w_t4 /\ orderly (tm_ops w_t4 9) /\ fresh_secrets (tm_ops w_t4 9) /\ (9, w_msg) ∈ tm_cts w_t4 /\
  sealed_after (tm_ops w_t4 9) (known_ops w_rev.1 9) 3 w_msg /\ only_of (tm_ops w_t4 9) 3 w_keys3 /\ secrets_about (tm_ops w_t4 9) [3] = [23; 43; 200; 202; 201] /\
  closed_to w_keys3 (tm_ops w_t4 9) w_msg.
Proof.
  destruct w_rev_done as [ops Q]. exists ops.
  assert (D : is_Some (h_docs w_add.1 !! 9)) by (apply (bool_decide_unpack _); vm_compute; exact I).
  assert (G : is_Some (h_groups w_add.1 !! 7)) by (apply (bool_decide_unpack _); vm_compute; exact I).
  assert (K : in_key w_add.1 9 9) by (apply keyed_in; vm_compute; reflexivity).
  assert (B : belongs (h_env w_rev.1) 9 7) by (apply tc_once, people_direct; apply (bool_decide_unpack _); vm_compute; exact I).
  assert (Di : direct (h_env w_add.1) 7 3) by (apply people_direct; apply (bool_decide_unpack _); vm_compute; exact I).
  assert (Sf : stands_for (h_env w_add.1) 3 3) by (split; [constructor|vm_compute; reflexivity]).
  assert (Np : ~ person_of (h_env w_rev.1) 9 3) by (apply (outb_ok _ _ _ {[ 1; 4; 7 ]}); vm_compute; reflexivity).
  assert (S : rtc tstep w_t2 w_t4) by (eapply rtc_l; [exact w_t3_step|exact w_t4_steps]).
  assert (Sa : sealed_after (tm_ops w_t4 9) (known_ops w_rev.1 9) 3 w_msg) by (apply sealed_after_b_sound; vm_compute; reflexivity).
  split; [exact w_t1_reach|]. split; [exact said_signed|]. split; [exact w_t1_tidy|]. split; [exact w_t1_one|]. split; [exact w_t1_new|]. split; [exact Q|]. split; [exact D|]. split; [exact K|].
  split; [exact G|]. split; [exact B|]. split; [exact Di|]. split; [exact Sf|]. split; [exact Np|]. split; [exact S|]. split; [exact w_t4_orderly|]. split; [exact w_t4_fresh|]. split; [exact w_msg_there|].
  split; [exact Sa|]. split; [exact w_keys3_only|]. split; [vm_compute; reflexivity|].
  refine (C56_revoked_locked_out c_order c_ho c_ro c_pick mentions HO HH HR w_t1 1 w_add.1 7 3 false 0 [98; 99; 100] (at9 80) w_rev.1 [r_three] [] ops Said said_signed w_t1_tidy w_t1_reach w_t1_one w_t1_new Q
    _ _ 9 3 w_t4 w_msg w_keys3 D K (or_intror (conj G B)) Di Sf Np S w_t4_orderly w_t4_fresh w_msg_there Sa w_keys3_only).
  - intros x Hx. apply elem_of_list_singleton in Hx as ->. do 6 right. left.
  - intros x Hx. inversion Hx.
Qed.
(** 4 reads. *)
Lemma key_check h d (f : cgka -> bool) : match cgka_of h d with Some c => f c | None => false end = true -> exists c, cgka_of h d = Some c /\ f c = true.
Proof. destruct (cgka_of h d) as [c|]; [eauto|discriminate]. Qed.
Example C56_read_case : exists o c, treach w_t2 /\ tm_clients w_t2 !! 1 = Some w_rev.1 /\ tm_ops w_t2 9 !! 95 = None /\
  hive_encrypt (c_ho 1) (c_ro 1) w_rev.1 9 1 [42] [] 45 95 (seq 270 20) = (w_seal.1, DOk (w_msg, o)) /\ rtc tstep (wrote (went w_t2 1 w_seal.1) 9 w_msg) w_t4 /\ orderly (tm_ops w_t4 9) /\
  tm_clients w_t4 !! 4 = Some (cl w_t4 4) /\ cgka_of (cl w_t4 4) 9 = Some c /\ c_owner c = 4 /\ in_key w_rev.1 9 4 /\ is_Some (known_ops (cl w_t4 4) 9 !! ec_op w_msg) /\ holds_own (known_ops (cl w_t4 4) 9) c /\
  (hive_decrypt (c_ro 4) (cl w_t4 4) 9 w_msg).2 = Some [42].
Proof.
  destruct w_seal_done as [o Q]. destruct (key_check (cl w_t4 4) 9 (fun c => (c_owner c =? 4) && holds_b (known_ops (cl w_t4 4) 9) c)) as (c & Ec & B); [vm_compute; reflexivity|].
  apply andb_true_iff in B as [B1 B2]. apply Nat.eqb_eq in B1. apply holds_b_sound in B2. exists o, c.
  assert (E4 : tm_clients w_t4 !! 4 = Some (cl w_t4 4)) by (apply cl_some; vm_compute; reflexivity).
  assert (K : in_key w_rev.1 9 4) by (apply keyed_in; vm_compute; reflexivity).
  assert (Kn : is_Some (known_ops (cl w_t4 4) 9 !! ec_op w_msg)) by (apply (bool_decide_unpack _); vm_compute; exact I).
  split; [exact w_t2_reach|]. split; [exact w_t2_one|]. split; [exact w_t2_new|]. split; [exact Q|]. split; [exact w_t4_steps|]. split; [exact w_t4_orderly|]. split; [exact E4|]. split; [exact Ec|]. split; [exact B1|].
  split; [exact K|]. split; [exact Kn|]. split; [exact B2|].
  assert (K' : in_key w_rev.1 9 (c_owner c)) by (rewrite B1; exact K).
  exact (C56_delivery c_order c_ho c_ro c_pick mentions HO HH HR w_t2 1 w_rev.1 9 1 [42] [] 45 95 (seq 270 20) w_seal.1 w_msg o w_t4 4 (cl w_t4 4) c w_t2_reach w_t2_one w_t2_new Q w_t4_steps w_t4_orderly E4 Ec K' Kn B2).
Qed.
