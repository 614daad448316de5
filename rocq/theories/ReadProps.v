(** Members that change their keys at the same time: who can go on reading and writing
    (C51), and what the trees hold (C52).  Changes of members take turns, every member acts
    from one device and keys are fresh ([orderly] in [ReadSpec]); updates may be made at any
    time by anybody, in any number, without knowledge of each other, and be received in any
    order. *)
From Coq Require Import Arith.
From stdpp Require Import base list gmap.
From Verif Require Import ResModel KeysModel TreeModel TreeSpec OpsModel OpsSpec CgkaModel CgkaSpec NetSpec NetRun CgkaPropsProofs GrowSpec GrowPropsProofs ReadSpec ReadPropsProofs ReadRoster.

Section net.
Context (ho : nat -> gset digest -> list digest) (ro : nat -> gset (member_id * nat) -> list (member_id * nat)).
Context (HH : forall r, some_order (ho r)) (HR : forall r, some_order (ro r)).

(** ** The roster.  At all times the tree of every replica is that of the members according
    to the operations it knows, and no replay is ever waiting. *)
Theorem C52_tree n r c : net_reachable ho ro n -> orderly (n_ops n) -> n_reps n !! r = Some c ->
  roster_tree (g_ops (c_graph c)) (c_tree c) /\ c_pending c = false.
Proof. intros R Od. exact (every_roster ho ro HH HR n R Od r c). Qed.

(** Replicas that know the same have the same members in the same places with the same
    keys, and the same keys at the inner nodes. *)
Theorem C52_agree n r c r' c' : net_reachable ho ro n -> orderly (n_ops n) -> n_reps n !! r = Some c -> n_reps n !! r' = Some c' ->
  g_ops (c_graph c) = g_ops (c_graph c') ->
  t_ids (c_tree c) = t_ids (c_tree c') /\ t_next (c_tree c) = t_next (c_tree c') /\ t_size (c_tree c) = t_size (c_tree c') /\ (forall i, leafv (c_tree c) i = leafv (c_tree c') i) /\
  forall k j, match innerv (c_tree c) k j, innerv (c_tree c') k j with Some s, Some s' => Permutation s s' | None, None => True | _, _ => False end.
Proof. intros R Od. exact (same_knowledge ho ro HH HR n R Od r c r' c'). Qed.

(** Every operation can be received once those it was made on top of are known. *)
Theorem C52_receive n r c h op : net_reachable ho ro n -> orderly (n_ops n) -> n_reps n !! r = Some c ->
  n_ops n !! h = Some op -> (forall p, p ∈ op_preds (so_op op) -> is_Some (g_ops (c_graph c) !! p)) ->
  exists c' b, merge_concurrent_operation (ho r) (ro r) c op = (c', Ok b) /\ g_ops (c_graph c') = <[h := op]> (g_ops (c_graph c)) /\
    (b = true <-> g_ops (c_graph c) !! h = None).
Proof. intros R Od. exact (every_receive ho ro HH HR n R Od r c h op). Qed.
(** It then adds, removes, or leaves the members alone. *)
Theorem C52_received n r c h op : net_reachable ho ro n -> orderly (n_ops n) -> n_reps n !! r = Some c ->
  n_ops n !! h = Some op -> (forall p, p ∈ op_preds (so_op op) -> is_Some (g_ops (c_graph c) !! p)) -> g_ops (c_graph c) !! h = None ->
  let ops' := <[h := op]> (g_ops (c_graph c)) in
  match so_op op with
  | CAdd id _ _ _ _ => forall id', member ops' id' <-> id' = id \/ member (g_ops (c_graph c)) id'
  | CRemove id _ _ _ => forall id', member ops' id' <-> id' <> id /\ member (g_ops (c_graph c)) id'
  | CUpdate _ _ _ => forall id', member ops' id' <-> member (g_ops (c_graph c)) id'
  end.
Proof. intros R Od. exact (receive_members ho ro HH HR n R Od r c h op). Qed.

(** Members can be added and removed at any time, also after removals and again. *)
Theorem C52_add n r c id pk h : net_reachable ho ro n -> orderly (n_ops n) -> n_reps n !! r = Some c -> g_ops (c_graph c) !! h = None ->
  (member (g_ops (c_graph c)) id -> cgka_add (ho r) (ro r) c id pk h = (c, Ok None)) /\
  (~ member (g_ops (c_graph c)) id -> exists c' op i ps qs, cgka_add (ho r) (ro r) c id pk h = (c', Ok (Some op)) /\ so_hash op = h /\ so_op op = CAdd id pk i ps qs /\
    g_ops (c_graph c') = <[h := op]> (g_ops (c_graph c)) /\ forall id', member (g_ops (c_graph c')) id' <-> id' = id \/ member (g_ops (c_graph c)) id').
Proof. intros R Od. exact (every_add ho ro HH HR n R Od r c id pk h). Qed.
Theorem C52_remove n r c id h : net_reachable ho ro n -> orderly (n_ops n) -> n_reps n !! r = Some c -> g_ops (c_graph c) !! h = None ->
  (~ member (g_ops (c_graph c)) id -> cgka_remove (ho r) (ro r) c id h = (c, Ok None)) /\
  (member (g_ops (c_graph c)) id -> (exists id', id' <> id /\ member (g_ops (c_graph c)) id') ->
   exists c' op i ks ps, cgka_remove (ho r) (ro r) c id h = (c', Ok (Some op)) /\ so_hash op = h /\ so_op op = CRemove id i ks ps /\
    g_ops (c_graph c') = <[h := op]> (g_ops (c_graph c)) /\ forall id', member (g_ops (c_graph c')) id' <-> id' <> id /\ member (g_ops (c_graph c)) id').
Proof. intros R Od. exact (every_remove ho ro HH HR n R Od r c id h). Qed.

(** ** Reading.  When all that a member knows has been gathered by one update, the member
    reads that update's key from the tree. *)
Theorem C51_members_have_key n r c u o : net_reachable ho ro n -> orderly (n_ops n) -> n_reps n !! r = Some c ->
  g_heads (c_graph c) = {[ u ]} -> g_ops (c_graph c) !! u = Some o -> is_update (so_op o) = true ->
  member (g_ops (c_graph c)) (c_owner c) -> holds_own (g_ops (c_graph c)) c ->
  exists c' k, pcs_key_from_tree_root c = (c', Ok k) /\ top_key (so_op o) = Some k.
Proof. intros R Od. intros E Hu Eo Up Me Ho. exact (members_read_root ho ro HH HR n R Od r c u o (c_owner c) E Hu Eo Up (or_introl eq_refl) Me Ho). Qed.
(** If everybody is a member, so does whoever is none and has the public secrets. *)
Theorem C51_public_has_key n r c u o : net_reachable ho ro n -> orderly (n_ops n) -> n_reps n !! r = Some c ->
  g_heads (c_graph c) = {[ u ]} -> g_ops (c_graph c) !! u = Some o -> is_update (so_op o) = true ->
  ~ member (g_ops (c_graph c)) (c_owner c) -> member (g_ops (c_graph c)) public_id -> holds_for (g_ops (c_graph c)) c public_id ->
  exists c' k, pcs_key_from_tree_root c = (c', Ok k) /\ top_key (so_op o) = Some k.
Proof. intros R Od E Hu Eo Up No Me Ho. exact (members_read_root ho ro HH HR n R Od r c u o public_id E Hu Eo Up (or_intror (conj eq_refl No)) Me Ho). Qed.

(** A member reads everything that was ever sealed under an operation to whose maker it was
    a member, whatever else was made at the same time, and also if it was removed since. *)
Theorem C51_members_read n r c e : net_reachable ho ro n -> orderly (n_ops n) -> n_reps n !! r = Some c ->
  e ∈ n_cts n -> is_Some (g_ops (c_graph c) !! ec_op e) ->
  member_at (g_ops (c_graph c)) (c_owner c) (ec_op e) -> holds_own (g_ops (c_graph c)) c ->
  exists c' key, decryption_key_for (ro r) c e = (c', Ok key) /\ content_decrypt e key = Some (ct_plain (ec_cipher e)).
Proof. intros R Od. intros E He Kn Me Ho. exact (members_read_content ho ro HH HR n R Od r c e (c_owner c) E He Kn (or_introl eq_refl) Me Ho). Qed.
Theorem C51_public_reads n r c e : net_reachable ho ro n -> orderly (n_ops n) -> n_reps n !! r = Some c ->
  e ∈ n_cts n -> is_Some (g_ops (c_graph c) !! ec_op e) -> ~ member_at (g_ops (c_graph c)) (c_owner c) (ec_op e) ->
  member_at (g_ops (c_graph c)) public_id (ec_op e) -> holds_for (g_ops (c_graph c)) c public_id ->
  exists c' key, decryption_key_for (ro r) c e = (c', Ok key) /\ content_decrypt e key = Some (ct_plain (ec_cipher e)).
Proof. intros R Od E He Kn No Me Ho. exact (members_read_content ho ro HH HR n R Od r c e public_id E He Kn (or_intror (conj eq_refl No)) Me Ho). Qed.

(** ** Writing.  A member can update at any time, however many concurrent operations are
    known; the update gathers them all, its key is the one returned, and the member still
    has the secrets of the own keys. *)
Theorem C51_members_update n r c sk h rng : net_reachable ho ro n -> orderly (n_ops n) -> n_reps n !! r = Some c ->
  member (g_ops (c_graph c)) (c_owner c) -> 2 * size (g_ops (c_graph c)) <= length rng ->
  exists c' k op rng', cgka_update (ho r) (ro r) c sk h rng = (c', Ok (k, op, rng')) /\ so_hash op = h /\ g_heads (c_graph c') = {[ h ]} /\
    op_preds (so_op op) = g_heads (c_graph c) /\ g_ops (c_graph c') = <[h := op]> (g_ops (c_graph c)) /\ top_key (so_op op) = Some k /\
    c_owner c' = c_owner c /\ gives_key (so_op op) (c_owner c) (pub sk) /\
    (holds_own (g_ops (c_graph c)) c -> holds_own (g_ops (c_graph c')) c').
Proof. intros R Od. exact (members_update ho ro HH HR n R Od r c sk h rng). Qed.

(** A member can seal content at any time. *)
Theorem C51_members_seal n r c ref content preds sk h rng : net_reachable ho ro n -> orderly (n_ops n) -> n_reps n !! r = Some c ->
  member (g_ops (c_graph c)) (c_owner c) -> holds_own (g_ops (c_graph c)) c -> 2 * size (g_ops (c_graph c)) <= length rng ->
  exists c' s o, new_app_secret_for (ho r) (ro r) c ref content preds sk h rng = (c', Ok (s, o)) /\ holds_own (g_ops (c_graph c')) c'.
Proof. intros R Od. exact (members_seal ho ro HH HR n R Od r c ref content preds sk h rng). Qed.

(** ** The own secrets.  Receiving operations that give the member no new key keeps them. *)
Theorem C51_receive_keeps_own n r c op c' x : net_reachable ho ro n -> n_reps n !! r = Some c -> holds_own (g_ops (c_graph c)) c ->
  (forall k, gives_key (so_op op) (c_owner c) k -> is_Some (c_sks c !! k)) ->
  merge_concurrent_operation (ho r) (ro r) c op = (c', x) -> c_owner c' = c_owner c /\ holds_own (g_ops (c_graph c')) c'.
Proof. exact (receive_holds ho ro HH HR n r c op c' x). Qed.
End net.
Print Assumptions C52_tree.
Print Assumptions C52_agree.
Print Assumptions C52_receive.
Print Assumptions C52_received.
Print Assumptions C52_add.
Print Assumptions C52_remove.
Print Assumptions C51_members_have_key.
Print Assumptions C51_members_read.
Print Assumptions C51_public_has_key.
Print Assumptions C51_public_reads.
Print Assumptions C51_members_update.
Print Assumptions C51_members_seal.
Print Assumptions C51_receive_keeps_own.

(** ** A case.  Members 1, 3 and 4 update without knowledge of each other, 3 once more
    knowing only of its own update and that of 4, and 1 seals a message in between; then 4 gathers all. *)
Definition r_base : list action :=
  [AOwner 0 1 [11]; AAdd 0 2 12 101; AAdd 0 3 13 102; AAdd 0 4 14 103; AUpdate 0 21 104 [31;32;33;34;35];
   AJoin 2 1 11 100; AOwner 2 3 [13]; AReceive 2 101; AReceive 2 102; AReceive 2 103; AReceive 2 104;
   AJoin 3 1 11 100; AOwner 3 4 [14]; AReceive 3 101; AReceive 3 102; AReceive 3 103; AReceive 3 104].
Definition r_race : list action :=
  [AUpdate 0 22 105 [41;42;43;44]; AEncrypt 0 7 [1;2;3] [] 0 120 []; AUpdate 2 23 106 [51;52;53;54]; AUpdate 3 24 107 [61;62;63;64];
   AReceive 2 107; AReceive 3 105; AUpdate 2 25 108 [71;72;73;74]; AReceive 0 106; AReceive 0 107; AReceive 0 108; AReceive 3 106; AReceive 3 108; AReceive 2 105].
Definition r_run (l : list action) : network := net_of (run 1 11 100 l).
Lemma r_run_reachable l : (match run 1 11 100 l with Some _ => true | None => false end) = true -> net_reachable asc_h asc_r (r_run l).
Proof. unfold r_run. destruct (run 1 11 100 l) as [n|] eqn:E; [|discriminate]. intros _. eapply run_reachable; exact E. Qed.

Definition w_race : network := r_run (r_base ++ r_race).
Definition w_gathered : network := r_run (r_base ++ r_race ++ [AUpdate 3 26 109 [81;82;83;84]; AReceive 0 109; AReceive 2 109]).
Definition meets (n : network) (r : nat) : bool :=
  match n_reps n !! r with
  | Some c => member_b (g_ops (c_graph c)) (c_owner c) && holds_b (g_ops (c_graph c)) c
  | None => false
  end.
Example w_race_meets : net_reachable asc_h asc_r w_race /\ orderly (n_ops w_race) /\ forallb (meets w_race) [0; 2; 3] = true /\
  map (fun r => size (g_heads (c_graph (rep w_race r)))) [0; 2; 3] = [2; 2; 2].
Proof.
  split; [apply r_run_reachable; vm_compute; reflexivity|]. split; [apply orderly_b_sound; vm_compute; reflexivity|].
  split; vm_compute; reflexivity.
Qed.
(** 3 and 4 read what 1 sealed under an update concurrent to theirs. *)
Example w_race_read : forallb (fun r => match n_cts w_race with
    | e :: _ => member_at_b (g_ops (c_graph (rep w_race r))) (c_owner (rep w_race r)) (ec_op e) &&
        match (decryption_key_for (asc_r r) (rep w_race r) e).2 with Ok k => bool_decide (content_decrypt e k = Some [1;2;3]) | _ => false end
    | [] => false
    end) [2; 3] = true.
Proof. vm_compute. reflexivity. Qed.
Example w_gathered_meets : net_reachable asc_h asc_r w_gathered /\ orderly (n_ops w_gathered) /\ forallb (meets w_gathered) [0; 2; 3] = true /\
  map (fun r => (elements (g_heads (c_graph (rep w_gathered r))), (pcs_key_from_tree_root (rep w_gathered r)).2)) [0; 2; 3] =
    [([109], Ok 82); ([109], Ok 82); ([109], Ok 82)].
Proof.
  split; [apply r_run_reachable; vm_compute; reflexivity|]. split; [apply orderly_b_sound; vm_compute; reflexivity|].
  split; vm_compute; reflexivity.
Qed.

(** ** A case with removals.  4 is removed and 3 updates at both sides of it; 4 is added
    again, under a new key, and 1 and 3 update without knowledge of each other; 2 is removed
    and 4 updates.  1 sealed a message at first and seals one at the end. *)
Definition r_turns : list action :=
  [AEncrypt 0 7 [1;2;3] [] 0 130 [];
   AUpdate 2 23 105 [41;42;43;44]; AReceive 0 105; AReceive 3 105; ARemove 0 4 106; AReceive 2 106; AReceive 3 106;
   AUpdate 2 24 107 [51;52;53;54]; AReceive 0 107; AReceive 3 107; AAdd 0 4 34 108; AOwner 3 4 [14; 34]; AReceive 2 108; AReceive 3 108;
   AUpdate 0 25 109 [61;62;63;64]; AUpdate 2 26 110 [71;72;73;74]; AReceive 0 110; AReceive 2 109; AReceive 3 110; AReceive 3 109;
   ARemove 3 2 111; AReceive 0 111; AReceive 2 111; AUpdate 3 27 112 [81;82;83;84]; AReceive 0 112; AReceive 2 112;
   AEncrypt 0 8 [4;5;6] [] 0 131 []].
Definition w_turns : network := r_run (r_base ++ r_turns).
Example w_turns_meets : net_reachable asc_h asc_r w_turns /\ orderly (n_ops w_turns) /\ forallb (meets w_turns) [0; 2; 3] = true /\
  map (fun r => (elements (g_heads (c_graph (rep w_turns r))), (pcs_key_from_tree_root (rep w_turns r)).2)) [0; 2; 3] =
    [([112], Ok 82); ([112], Ok 82); ([112], Ok 82)] /\
  map (fun id => member_b (g_ops (c_graph (rep w_turns 0))) id) [1; 2; 3; 4] = [true; false; true; true].
Proof.
  split; [apply r_run_reachable; vm_compute; reflexivity|]. split; [apply orderly_b_sound; vm_compute; reflexivity|].
  split; [vm_compute; reflexivity|]. split; vm_compute; reflexivity.
Qed.
(** 3 and 4 read both messages, though 4 was removed in between. *)
Example w_turns_read : length (n_cts w_turns) = 2 /\ forallb (fun r => forallb (fun e =>
        member_at_b (g_ops (c_graph (rep w_turns r))) (c_owner (rep w_turns r)) (ec_op e) &&
        match (decryption_key_for (asc_r r) (rep w_turns r) e).2 with Ok k => bool_decide (content_decrypt e k = Some (ct_plain (ec_cipher e))) | _ => false end) (n_cts w_turns)) [2; 3] = true.
Proof. split; vm_compute; reflexivity. Qed.

(** Also 4, removed for good, reads what was sealed before, having learnt of the removal
    and of an update made after it. *)
Definition w_gone : network := r_run (r_base ++ [AEncrypt 0 7 [1;2;3] [] 0 130 []; ARemove 0 4 106; AReceive 2 106; AReceive 3 106; AUpdate 2 24 107 [51;52;53;54]; AReceive 0 107; AReceive 3 107]).
Example w_gone_read : net_reachable asc_h asc_r w_gone /\ orderly (n_ops w_gone) /\ member_b (g_ops (c_graph (rep w_gone 3))) 4 = false /\
  holds_b (g_ops (c_graph (rep w_gone 3))) (rep w_gone 3) = true /\ length (n_cts w_gone) = 1 /\
  forallb (fun e => member_at_b (g_ops (c_graph (rep w_gone 3))) 4 (ec_op e) &&
    match (decryption_key_for (asc_r 3) (rep w_gone 3) e).2 with Ok k => bool_decide (content_decrypt e k = Some [1;2;3]) | _ => false end) (n_cts w_gone) = true.
Proof.
  split; [apply r_run_reachable; vm_compute; reflexivity|]. split; [apply orderly_b_sound; vm_compute; reflexivity|].
  split; [vm_compute; reflexivity|]. split; [vm_compute; reflexivity|]. split; vm_compute; reflexivity.
Qed.
(** 9 is no member, but everybody is ([public_id]): with the public secret 9 reads. *)
Definition w_public : network := r_run (r_base ++ [AAdd 0 public_id 17 106; AUpdate 0 25 107 [61;62;63;64;65;66;67;68]; AEncrypt 0 7 [1;2;3] [] 0 130 [];
  AJoin 5 1 11 100; AOwner 5 9 [17]; AReceive 5 101; AReceive 5 102; AReceive 5 103; AReceive 5 104; AReceive 5 106; AReceive 5 107]).
Example w_public_read : net_reachable asc_h asc_r w_public /\ orderly (n_ops w_public) /\ ~ member (g_ops (c_graph (rep w_public 5))) 9 /\ ~ member_at (g_ops (c_graph (rep w_public 5))) 9 107 /\
  member_b (g_ops (c_graph (rep w_public 5))) public_id = true /\ length (n_cts w_public) = 1 /\
  (match (pcs_key_from_tree_root (rep w_public 5)).2 with Ok _ => true | _ => false end) = true /\
  forallb (fun e => member_at_b (g_ops (c_graph (rep w_public 5))) public_id (ec_op e) &&
    match (decryption_key_for (asc_r 5) (rep w_public 5) e).2 with Ok k => bool_decide (content_decrypt e k = Some [1;2;3]) | _ => false end) (n_cts w_public) = true.
Proof.
  split; [apply r_run_reachable; vm_compute; reflexivity|]. split; [apply orderly_b_sound; vm_compute; reflexivity|].
  split; [apply never_added; vm_compute; reflexivity|]. split; [apply never_added; vm_compute; reflexivity|].
  split; [vm_compute; reflexivity|]. split; [vm_compute; reflexivity|]. split; vm_compute; reflexivity.
Qed.

(** ** Additions that do not take turns: refuted.  1 adds 5 and updates, while 3 updates; 5
    gathers all.  Then 3 and 4, who have all their secrets, cannot read the key of 5's
    update: the addition made the tree taller while 3's update was under way. *)
Definition w_tall : network := r_run (r_base ++ [AUpdate 2 23 105 [41;42;43;44]; AReceive 0 105; AReceive 3 105;
  AAdd 0 5 15 110; AUpdate 2 24 112 [51;52;53;54]; AUpdate 0 25 113 [61;62;63;64;65;66;67]; AReceive 0 112;
  AJoin 4 1 11 100; AOwner 4 5 [15]; AReceive 4 101; AReceive 4 102; AReceive 4 103; AReceive 4 104; AReceive 4 105; AReceive 4 110; AReceive 4 112; AReceive 4 113;
  AUpdate 4 26 120 [71;72;73;74;75;76];
  AReceive 3 110; AReceive 3 112; AReceive 3 113; AReceive 3 120; AReceive 0 120; AReceive 2 110; AReceive 2 113; AReceive 2 120]).
Theorem C51_racing_addition_refuted : ~ forall ho ro n r c u o, (forall i, some_order (ho i)) -> (forall i, some_order (ro i)) ->
  net_reachable ho ro n -> only_grows (n_ops n) -> one_writer (n_ops n) -> fresh_keys (n_ops n) -> n_reps n !! r = Some c ->
  g_heads (c_graph c) = {[ u ]} -> g_ops (c_graph c) !! u = Some o -> is_update (so_op o) = true ->
  member (g_ops (c_graph c)) (c_owner c) -> holds_own (g_ops (c_graph c)) c ->
  exists c' k, pcs_key_from_tree_root c = (c', Ok k).
Proof.
  intros H. assert (Eo : exists o, g_ops (c_graph (rep w_tall 3)) !! 120 = Some o /\ is_update (so_op o) = true).
  { destruct (g_ops (c_graph (rep w_tall 3)) !! 120) as [o|] eqn:E.
    - exists o. split; [reflexivity|]. assert (Q : (is_update ∘ so_op) <$> g_ops (c_graph (rep w_tall 3)) !! 120 = Some true) by (vm_compute; reflexivity). rewrite E in Q. injection Q as Q. exact Q.
    - assert (Q : (is_update ∘ so_op) <$> g_ops (c_graph (rep w_tall 3)) !! 120 = Some true) by (vm_compute; reflexivity). rewrite E in Q. discriminate. }
  destruct Eo as (o & Eo & Up).
  destruct (H asc_h asc_r w_tall 3 (rep w_tall 3) 120 o asc_h_order asc_r_order) as (c' & k & Q).
  - apply r_run_reachable. vm_compute. reflexivity.
  - apply grows_b_sound. vm_compute. reflexivity.
  - apply one_b_sound. vm_compute. reflexivity.
  - apply fresh_b_sound. vm_compute. reflexivity.
  - apply rep_some. vm_compute. reflexivity.
  - apply (bool_decide_unpack _). vm_compute. exact I.
  - exact Eo.
  - exact Up.
  - apply member_b_sound. vm_compute. reflexivity.
  - apply holds_b_sound. vm_compute. reflexivity.
  - apply (f_equal snd) in Q. cbn [snd] in Q. assert (Z : (match (pcs_key_from_tree_root (rep w_tall 3)).2 with Ok _ => true | _ => false end) = false) by (vm_compute; reflexivity). rewrite Q in Z. discriminate.
Qed.
Print Assumptions C51_racing_addition_refuted.

(** ** Two devices of one member: refuted.  Both update; then an update of member 1, who has
    all their secrets, panics. *)
Definition w_two : network := r_run (r_base ++ [AJoin 5 1 11 100; AOwner 5 3 [13]; AReceive 5 101; AReceive 5 102; AReceive 5 103; AReceive 5 104;
  AUpdate 2 23 106 [51;52;53;54]; AUpdate 5 24 107 [61;62;63;64]; AReceive 0 106; AReceive 0 107]).
Theorem C51_two_devices_refuted : ~ forall ho ro n r c sk h rng, (forall i, some_order (ho i)) -> (forall i, some_order (ro i)) ->
  net_reachable ho ro n -> only_grows (n_ops n) -> changes_in_turn (n_ops n) -> fresh_keys (n_ops n) -> n_reps n !! r = Some c ->
  member (g_ops (c_graph c)) (c_owner c) -> holds_own (g_ops (c_graph c)) c -> 2 * size (g_ops (c_graph c)) <= length rng ->
  (cgka_update (ho r) (ro r) c sk h rng).2 <> Panic.
Proof.
  intros H. apply (H asc_h asc_r w_two 0 (rep w_two 0) 28 120 (seq 200 20) asc_h_order asc_r_order).
  - apply r_run_reachable. vm_compute. reflexivity.
  - apply grows_b_sound. vm_compute. reflexivity.
  - apply turn_b_sound. vm_compute. reflexivity.
  - apply fresh_b_sound. vm_compute. reflexivity.
  - apply rep_some. vm_compute. reflexivity.
  - apply member_b_sound. vm_compute. reflexivity.
  - apply holds_b_sound. vm_compute. reflexivity.
  - apply (Nat.leb_le _ _). vm_compute. reflexivity.
  - vm_compute. reflexivity.
Qed.
Print Assumptions C51_two_devices_refuted.
