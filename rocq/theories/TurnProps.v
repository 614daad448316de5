(** Groups in which operations are made in turn: everybody can catch up, and members can read
    and write (C48). *)
From stdpp Require Import base list gmap relations.
From Verif Require Import ResModel KeysModel TreeModel OpsModel OpsSpec CgkaModel CgkaSpec NetSpec NetProofs NetRun TurnSpec TurnLine TurnCalls TurnProofs TurnPropsProofs TurnRead TurnRun.

(** ** Receiving.  An operation whose predecessors are known is taken. *)
Theorem C48_receives_in_order ho ro n r c h op :
  (forall i, some_order (ho i)) -> (forall i, some_order (ro i)) ->
  turns ho ro n -> n_reps n !! r = Some c -> n_ops n !! h = Some op ->
  (forall p, p ∈ op_preds (so_op op) -> is_Some (g_ops (c_graph c) !! p)) ->
  exists c' b, merge_concurrent_operation (ho r) (ro r) c op = (c', Ok b) /\
    g_ops (c_graph c') !! h = Some op /\ g_ops (c_graph c) ⊆ g_ops (c_graph c').
Proof. intros HH HR. exact (receive_known ho ro HH HR n r c h op). Qed.
Print Assumptions C48_receives_in_order.

(** Every replica can catch up at any time, keeping the secrets it has. *)
Theorem C48_catches_up ho ro n r c :
  (forall i, some_order (ho i)) -> (forall i, some_order (ro i)) ->
  turns ho ro n -> n_reps n !! r = Some c ->
  exists c', receives (ho r) (ro r) (n_ops n) c c' /\ informed n c' /\ turns ho ro (moved n r c') /\
    c_owner c' = c_owner c /\ c_sks c' = c_sks c.
Proof. intros HH HR. exact (catch_up_lemma ho ro HH HR n r c). Qed.
Print Assumptions C48_catches_up.

(** Informed replicas agree on the members. *)
Theorem C48_informed_agree ho ro n r c r' c' :
  (forall i, some_order (ho i)) -> (forall i, some_order (ro i)) ->
  turns ho ro n -> n_reps n !! r = Some c -> n_reps n !! r' = Some c' -> informed n c -> informed n c' ->
  c_tree c = c_tree c' /\ c_graph c = c_graph c'.
Proof.
  intros HH HR R E E' I I'. destruct (turns_good ho ro HH HR _ R) as (id & pk & L & TG).
  destruct (tg_rep _ _ _ _ TG _ _ E) as (l & rest & EL & Hl). destruct (tg_rep _ _ _ _ TG _ _ E') as (l' & rest' & EL' & Hl').
  pose proof (informed_all _ _ _ _ _ _ _ TG EL Hl I) as ->. pose proof (informed_all _ _ _ _ _ _ _ TG EL' Hl' I') as ->.
  destruct Hl as (ops & pcs & L1 & _). destruct Hl' as (ops' & pcs' & L2 & _). destruct (line_det _ _ _ _ _ _ _ _ _ _ _ L1 L2) as [-> ->]. auto.
Qed.
Print Assumptions C48_informed_agree.

(** There is one roster after each operation. *)
Theorem C48_one_roster ho ro n h :
  (forall i, some_order (ho i)) -> (forall i, some_order (ro i)) ->
  turns ho ro n -> is_Some (n_ops n !! h) -> exists g, roster (n_ops n) h g /\ forall g', roster (n_ops n) h g' -> g' = g.
Proof.
  intros HH HR R [o Eo]. destruct (turns_good ho ro HH HR _ R) as (id & pk & L & [(G & T & ops & pcs & LL & En) _ _]). rewrite En in *.
  pose proof (line_ops _ _ _ _ _ _ _ LL) as LO. apply LO in Eo as [Eo <-].
  destruct (roster_exists_line _ _ _ _ _ _ _ LL (g_ops G)) with (o := o) as [g Hg]; [intros p Hp; apply LO; auto|exact Eo|].
  exists g. split; [exact Hg|]. intros g' Hg'. eapply roster_fun_line; eauto.
Qed.
Print Assumptions C48_one_roster.

(** ** Reading.  Whoever has the secret of the own key, or of the public member's key, at the
    operation a message was sealed under, reads the message. *)
Theorem C48_key_holders_read ho ro n r c e g m p :
  (forall i, some_order (ho i)) -> (forall i, some_order (ro i)) ->
  turns ho ro n -> n_reps n !! r = Some c -> e ∈ n_cts n -> is_Some (g_ops (c_graph c) !! ec_op e) ->
  roster (n_ops n) (ec_op e) g -> m = c_owner c \/ m = public_id -> g !! m = Some p -> is_Some (c_sks c !! p) ->
  exists c' key, decryption_key_for (ro r) c e = (c', Ok key) /\ content_decrypt e key = Some (ct_plain (ec_cipher e)).
Proof. intros HH HR. exact (reads_lemma ho ro HH HR n r c e g m p). Qed.
Print Assumptions C48_key_holders_read.

(** A member with one replica that was given the secrets of the keys the member was added
    with reads, after catching up, all that was ever sealed while they were a member. *)
Theorem C48_members_read ho ro n r c e g :
  (forall i, some_order (ho i)) -> (forall i, some_order (ro i)) ->
  turns ho ro n -> n_reps n !! r = Some c -> c_owner c <> public_id ->
  (forall r' c', n_reps n !! r' = Some c' -> c_owner c' = c_owner c -> r' = r) ->
  (forall h p i ps aps, n_ops n !! h = Some (SignedOp h (CAdd (c_owner c) p i ps aps)) -> is_Some (c_sks c !! p)) ->
  e ∈ n_cts n -> roster (n_ops n) (ec_op e) g -> is_Some (g !! c_owner c) ->
  exists c1 c2 key, receives (ho r) (ro r) (n_ops n) c c1 /\ informed n c1 /\
    decryption_key_for (ro r) c1 e = (c2, Ok key) /\ content_decrypt e key = Some (ct_plain (ec_cipher e)).
Proof.
  intros HH HR R E Np So Ad He Ro [p Em]. assert (Hs : is_Some (c_sks c !! p)).
  { destruct (own_key_lemma ho ro HH HR n r c (ec_op e) g p R E Np So Ro Em) as [Hs|(h & i & ps & aps & Eo)]; [exact Hs|]. eapply Ad; exact Eo. }
  destruct (catch_up_lemma ho ro HH HR n r c R E) as (c1 & Rs & I & R1 & O & S).
  assert (En : n_ops (moved n r c1) = n_ops n) by (cbn; rewrite I; apply union_absorb; reflexivity).
  assert (Ko : is_Some (n_ops n !! ec_op e)) by (inversion Ro; eauto).
  destruct (reads_lemma ho ro HH HR (moved n r c1) r c1 e g (c_owner c1) p R1) as (c2 & key & D & P).
  - apply lookup_insert.
  - exact He.
  - rewrite I. exact Ko.
  - rewrite En. exact Ro.
  - auto.
  - rewrite O. exact Em.
  - rewrite S. exact Hs.
  - exists c1, c2, key. auto.
Qed.
Print Assumptions C48_members_read.

(** ** Writing.  A member whose replica has the secret of the own key at its last operation
    can seal content, given enough randomness. *)
Theorem C48_members_write ho ro n r c h g p :
  (forall i, some_order (ho i)) -> (forall i, some_order (ro i)) ->
  turns ho ro n -> n_reps n !! r = Some c -> g_heads (c_graph c) = {[ h ]} -> roster (n_ops n) h g ->
  g !! c_owner c = Some p -> is_Some (c_sks c !! p) ->
  forall ref content preds sk h' rng, 2 * t_size (c_tree c) <= length rng ->
    exists c' s o, new_app_secret_for (ho r) (ro r) c ref content preds sk h' rng = (c', Ok (s, o)).
Proof. intros HH HR. exact (writes_lemma ho ro HH HR n r c h g p). Qed.
Print Assumptions C48_members_write.

(** And every replica has one last operation. *)
Theorem C48_one_head ho ro n r c :
  (forall i, some_order (ho i)) -> (forall i, some_order (ro i)) ->
  turns ho ro n -> n_reps n !! r = Some c -> exists h, g_heads (c_graph c) = {[ h ]} /\ is_Some (n_ops n !! h).
Proof.
  intros HH HR R E. destruct (turns_good ho ro HH HR _ R) as (id & pk & L & TG). pose proof TG as [(G & T & ops & pcs & LL & En) B _].
  destruct (B _ _ E) as (l & rest & EL & ops0 & pcs0 & L0 & _). destruct (line_head _ _ _ _ _ _ _ L0) as (l0 & o & El & Hh).
  exists (so_hash o). split; [exact Hh|]. exists o. rewrite En. apply (line_ops _ _ _ _ _ _ _ LL). rewrite EL, El. split; [set_solver|reflexivity].
Qed.
Print Assumptions C48_one_head.

(** ** The hypotheses are met *)

(** Alice (1) adds Bob (2) and Carol (3) and seals two messages.  Bob receives the operations
    late and partly out of order, removes Carol, updates and seals a message.  Carol's replica
    has received nothing but the first operation, Alice's not Bob's operations. *)
Definition tdemo_run : option network := trun 1 11 100 [11] [inl (AAdd 0 2 12 101); inl (AAdd 0 3 13 102);
  inl (AEncrypt 0 7 [1;2;3] [] 21 103 [31;32;33;34;35;36;37;38]); inr (1, 2, [12]); inr (2, 3, [13]);
  inl (AReceive 1 103); inl (AReceive 1 101); inl (AReceive 1 102);
  inl (AEncrypt 0 8 [4;5] [] 22 104 [41;42;43;44]); inl (AReceive 1 103); inl (ARemove 1 3 105);
  inl (AUpdate 1 52 106 [61;62;63;64;65;66;67;68]); inl (AEncrypt 1 9 [6] [] 23 107 [71;72;73;74;75;76])].
Definition tdemo : network := net_of tdemo_run.
Lemma tdemo_turns : turns asc_h asc_r tdemo.
Proof.
  apply (trun_turns 1 11 100 [11] [inl (AAdd 0 2 12 101); inl (AAdd 0 3 13 102);
    inl (AEncrypt 0 7 [1;2;3] [] 21 103 [31;32;33;34;35;36;37;38]); inr (1, 2, [12]); inr (2, 3, [13]);
    inl (AReceive 1 103); inl (AReceive 1 101); inl (AReceive 1 102);
    inl (AEncrypt 0 8 [4;5] [] 22 104 [41;42;43;44]); inl (AReceive 1 103); inl (ARemove 1 3 105);
    inl (AUpdate 1 52 106 [61;62;63;64;65;66;67;68]); inl (AEncrypt 1 9 [6] [] 23 107 [71;72;73;74;75;76])]).
  change (tdemo_run = Some tdemo). unfold tdemo. destruct tdemo_run eqn:E; [reflexivity|]. exfalso.
  assert (F : match tdemo_run with Some _ => true | None => false end = true) by (vm_compute; reflexivity). rewrite E in F. discriminate.
Qed.
Example tdemo_orders : (forall i, some_order (asc_h i)) /\ (forall i, some_order (asc_r i)).
Proof. split; intros i; [apply asc_h_order|apply asc_r_order]. Qed.
Example tdemo_rosters : roster (n_ops tdemo) 103 (<[1 := 21]> (<[3 := 13]> (<[2 := 12]> {[ 1 := 11 ]}))) /\
  roster (n_ops tdemo) 106 (<[2 := 52]> (delete 3 (<[1 := 21]> (<[3 := 13]> (<[2 := 12]> {[ 1 := 11 ]}))))).
Proof.
  assert (F : roster (n_ops tdemo) 100 {[ 1 := 11 ]}) by (apply ro_first; vm_compute; reflexivity).
  split; [apply (roster_along_ok (n_ops tdemo) [101; 102; 103] 100 {[ 1 := 11 ]}); [exact F|vm_compute; reflexivity]|].
  apply (roster_along_ok (n_ops tdemo) [101; 102; 103; 105; 106] 100 {[ 1 := 11 ]}); [exact F|vm_compute; reflexivity].
Qed.
(** Carol reads the first two messages after catching up. *)
Example tdemo_carol :
  let c := rep tdemo 2 in
  n_reps tdemo !! 2 = Some c /\ c_owner c = 3 /\ c_sks c !! 13 = Some 13 /\ map fst (map_to_list (c_sks c)) = [13] /\
  map ec_op (n_cts tdemo) = [106; 103; 103] /\ map (fun p => (p.1, c_owner p.2)) (map_to_list (n_reps tdemo)) = [(0, 1); (1, 2); (2, 3)].
Proof.
  assert (F : match n_reps tdemo !! 2 with Some _ => true | None => false end = true) by (vm_compute; reflexivity).
  cbv zeta. unfold rep. destruct (n_reps tdemo !! 2) as [c|] eqn:E; [|discriminate F]. cbn [from_option id default]. split; [reflexivity|].
  assert (Z : option_map (fun c => (c_owner c, c_sks c !! 13, map fst (map_to_list (c_sks c)))) (n_reps tdemo !! 2) = Some (3, Some 13, [13])) by (vm_compute; reflexivity).
  rewrite E in Z. cbn in Z. injection Z as -> -> ->. repeat split; vm_compute; reflexivity.
Qed.
Definition added_keys (ops : gmap digest signed_op) (m : member_id) : list share_key :=
  omap (fun x => match so_op x.2 with CAdd i p _ _ _ => if i =? m then Some p else None | _ => None end) (map_to_list ops).
Example tdemo_carol_reads e : e ∈ n_cts tdemo -> ec_op e = 103 ->
  exists c1 c2 key, receives (asc_h 2) (asc_r 2) (n_ops tdemo) (rep tdemo 2) c1 /\ informed tdemo c1 /\
    decryption_key_for (asc_r 2) c1 e = (c2, Ok key) /\ content_decrypt e key = Some (ct_plain (ec_cipher e)).
Proof.
  intros He Eo. destruct tdemo_carol as (E & O & S & _ & _ & Os). eapply C48_members_read.
  - apply tdemo_orders.
  - apply tdemo_orders.
  - exact tdemo_turns.
  - exact E.
  - rewrite O. discriminate.
  - rewrite O. intros r' c' E' O'. apply elem_of_map_to_list in E'.
    assert (I : (r', c_owner c') ∈ map (fun p => (p.1, c_owner p.2)) (map_to_list (n_reps tdemo))) by (apply elem_of_list_fmap; exists (r', c'); auto).
    rewrite Os, O' in I. clear -I. rewrite !elem_of_cons in I. destruct I as [I|[I|[I|I]]]; [discriminate I..|congruence|]. apply elem_of_nil in I. destruct I.
  - rewrite O. intros h p i ps aps E'. apply elem_of_map_to_list in E'.
    assert (I : p ∈ added_keys (n_ops tdemo) 3) by (unfold added_keys; apply elem_of_list_omap; eexists; split; [exact E'|reflexivity]).
    replace (added_keys (n_ops tdemo) 3) with [13] in I by (vm_compute; reflexivity). apply elem_of_list_singleton in I as ->. eauto.
  - exact He.
  - rewrite Eo. apply tdemo_rosters.
  - rewrite O. exists 13. reflexivity.
Qed.
