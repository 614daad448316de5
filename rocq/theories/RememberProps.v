(** C64: nothing that a client has learnt is forgotten. *)
From Coq Require Import Arith Lia.
From stdpp Require Import base list gmap relations.
From Verif Require Import ResModel KeysModel TreeModel OpsModel CgkaModel.
From Verif Require Import AccessModel GroupModel CgkaSpec GroupSpec GroupHistory GroupPropsProofs PrekeyModel HiveModel HiveSpec SyncModel DocModel DocSpec DocProofs.
From Verif Require Import TransactModel ArriveModel SettleSpec SettleProofs SettleProps RememberModel RememberSpec RememberProofs.

Section props.
Context (order : gset nat -> list nat) (horder : gset digest -> list digest) (rorder : gset (member_id * nat) -> list (member_id * nat)).
Context (pick : client -> ident -> ident -> share_key) (doc_content : nat -> ident -> bool) (P : mop -> Prop).
Context (O : some_order order) (Pr : proper P).
Notation mixed := (mixed order horder rorder pick doc_content P).
Notation later := (later order horder rorder pick doc_content P).

(** Whatever is called and received, and whether calls fail or not: every operation, group, document, person, prekey secret and document key
    that the client has stays. *)
Theorem C64_kept h h' : mixed h -> later h h' -> remembers h h' /\ mixed h'.
Proof.
  intros M L. induction L as [h|h h1 h2 V _ IH]; [split; [apply remembers_refl|exact M]|]. destruct (move_rem order horder rorder pick doc_content P O Pr h h1 M V) as [A M1].
  destruct (IH M1) as [B M2]. split; [eapply remembers_trans; eassumption|exact M2].
Qed.
(** So whoever the client can look up can be looked up ever after. *)
Theorem C64_known h h' i : mixed h -> later h h' -> known_agent h i = true -> known_agent h' i = true.
Proof.
  intros M L K. destruct (C64_kept h h' M L) as [R _]. unfold known_agent in *. rewrite !orb_true_iff, !bool_decide_eq_true, Nat.eqb_eq in *. fold (me h') in *. fold (me h) in K. rewrite (rm_me _ _ R).
  destruct K as [[[K|K]|K]|K]; [auto|left; left; right; apply (rm_docs _ _ R), K|left; right; apply (rm_groups _ _ R), K|right; apply (rm_people _ _ R), K].
Qed.
(** [get_membership_operation] returns exactly the operations the client has, each for its own digest. *)
Theorem C64_lookup h s o : mixed h -> get_membership_operation h s = Some o <-> has_op h o /\ op_sig o = s.
Proof.
  intros M. pose proof (mixed_settled order horder rorder pick doc_content P O Pr h M) as S. unfold get_membership_operation. split.
  - destruct (h_dlgs h !! s) as [d|] eqn:D.
    + intros [= <-]. cbn. rewrite (se_dlgs _ _ _ S s d D). auto.
    + destruct (h_revs h !! s) as [r|] eqn:R; [|discriminate]. intros [= <-]. cbn. rewrite (se_revs _ _ _ S s r R). auto.
  - intros [H E]. destruct o as [d|r]; cbn in H, E; subst s; [rewrite H; reflexivity|]. destruct (h_dlgs h !! r_sig r) as [d|] eqn:D; [|rewrite H; reflexivity]. exfalso.
    assert (Hd : has_op h (MD d)) by (cbn; rewrite (se_dlgs _ _ _ S _ _ D); exact D). assert (Hr : has_op h (MR r)) by exact H.
    pose proof (proj1 (proj1 Pr) (MD d) (MR r) (se_in _ _ _ S _ Hd) (se_in _ _ _ S _ Hr)) as X. cbn in X. discriminate X. exact (se_dlgs _ _ _ S _ _ D).
Qed.
Corollary C64_lookup_stays h h' s o : mixed h -> later h h' -> get_membership_operation h s = Some o -> get_membership_operation h' s = Some o.
Proof. intros M L X. destruct (C64_kept h h' M L) as [R M']. apply (C64_lookup h s o M) in X as [A B]. apply (C64_lookup h' s o M'). split; [apply (rm_ops _ _ R), A|exact B]. Qed.
(** What was revoked stays revoked: whatever happens afterwards, the delegation is not in force any more, as long as no other
    revocation hits the authority of the one that revoked it. *)
Theorem C64_revoked_for_good h h' r : mixed h -> later h h' -> has_op h (MR r) ->
  orderable (fun o => has_op h' o /\ op_subject o = r_subject r) -> revoked_once (fun o => has_op h' o /\ op_subject o = r_subject r) ->
  match r_proof r with Some p => untouched (fun o => (has_op h' o /\ op_subject o = r_subject r) /\ o <> MR r) p | None => r_issuer r = r_subject r end ->
  (exists g, has_group h' (r_subject r) g) /\ forall g, has_group h' (r_subject r) g -> ~ holds g (r_revoke r).
Proof.
  intros M L Hr Q V U. destruct (C64_kept h h' M L) as [R M']. apply (rm_ops _ _ R) in Hr. split.
  - exact (se_known _ _ _ (mixed_settled order horder rorder pick doc_content P O Pr h' M') (MR r) Hr).
  - intros g G. exact (C62_revoked order horder rorder pick doc_content P O Pr h' r g M' Hr G Q V U).
Qed.
(** Whoever was given access keeps it until it is revoked. *)
Theorem C64_member_until_revoked h h' d : mixed h -> later h h' -> has_op h (MD d) ->
  orderable (fun o => has_op h' o /\ op_subject o = d_subject d) -> untouched (fun o => has_op h' o /\ op_subject o = d_subject d) d ->
  exists g, has_group h' (d_subject d) g /\ holds g d.
Proof. intros M L Hd Q U. destruct (C64_kept h h' M L) as [R M']. exact (C62_kept order horder rorder pick doc_content P O Pr h' d M' (rm_ops _ _ R _ Hd) Q U). Qed.
End props.

(** [register_peer]: whoever is known stays as they are; whoever is not is known afterwards as given; nobody else changes. *)
Theorem C64_register_peer (h : client) i p h' b : register_peer h i p = (h', b) -> remembers h h' /\ (b = false <-> get_peer h i <> None) /\ (b = false -> h' = h) /\
  (b = true -> get_peer h' i = Some p) /\ forall j, j <> i -> get_peer h' j = get_peer h j.
Proof.
  unfold register_peer. destruct (get_peer h i) as [q|] eqn:E.
  - intros [= <- <-]. split; [apply remembers_refl|]. split; [split; [intros _; discriminate|reflexivity]|]. split; [reflexivity|]. split; [discriminate|reflexivity].
  - unfold get_peer in E. destruct (h_docs h !! i) eqn:D; [discriminate|]. destruct (h_groups h !! i) eqn:G; [discriminate|]. destruct (ks_indies (h_keys h) !! i) eqn:I; [discriminate|].
    intros [= <- <-]. split; [|split; [split; [discriminate|intros X; destruct (X eq_refl)]|split; [discriminate|split]]].
    + destruct p; (split; first [reflexivity|intros [d|r] X; exact X|intros; assumption|intros j; apply some_insert]).
    + intros _. destruct p; unfold get_peer; cbn; rewrite ?lookup_insert, ?D, ?G; cbn; rewrite ?lookup_insert; reflexivity.
    + intros j N. destruct p; unfold get_peer; cbn; rewrite ?lookup_insert_ne by congruence; reflexivity.
Qed.
(** [register_individual], for somebody not known otherwise: the same. *)
Theorem C64_register_individual (h : client) i x h' b : register_individual h i x = (h', b) -> remembers h h' /\ (b = false -> h' = h) /\
  (b = true -> h_groups h !! i = None -> h_docs h !! i = None -> get_peer h i = None /\ get_peer h' i = Some (PIndie x)) /\ forall j, j <> i -> get_peer h' j = get_peer h j.
Proof.
  unfold register_individual. destruct (ks_indies (h_keys h) !! i) as [y|] eqn:E; intros [= <- <-].
  - split; [apply remembers_refl|]. split; [reflexivity|]. split; [discriminate|reflexivity].
  - split; [|split; [discriminate|split]].
    + split; first [reflexivity|intros [d|r] X; exact X|intros; assumption|intros j; apply some_insert].
    + intros _ G D. unfold get_peer. cbn. rewrite D, G, E, lookup_insert. auto.
    + intros j N. unfold get_peer. cbn. rewrite ?lookup_insert_ne by congruence. reflexivity.
Qed.
(** [register_group] with the first delegation of a group that the client does not know does what receiving that delegation does. *)
Theorem C64_register_group order doc_content (h : client) x d : resolve_dlg h x = Datatypes.inr d -> d_proof d = None -> sd_ok x = true -> h_dlgs h !! sd_sig x = None -> h_groups h !! d_subject d = None ->
  h_docs h !! d_subject d = None -> ks_indies (h_keys h) !! d_subject d = None -> doc_content (sd_content x) (d_subject d) = false ->
  match register_group order h d with
  | Some (h', b) => b = true /\ receive_dlg order doc_content h x = (h', HDone)
  | None => receive_dlg order doc_content h x = (h, HFail (HAdd GFuel))
  end.
Proof.
  intros R Ep Ok Un G D I C. unfold register_group, receive_dlg. rewrite G, Un, bool_decide_eq_false_2 by (intros [? X]; discriminate). rewrite Ok. cbn [negb]. rewrite R. cbv zeta. rewrite G, D, I.
  destruct (new_group order d) as [g|]; [|reflexivity]. split; [reflexivity|]. rewrite C. destruct d as [s j w c pr af co]. cbn in Ep. subst pr. reflexivity.
Qed.

Print Assumptions C64_kept.
Print Assumptions C64_known.
Print Assumptions C64_lookup.
Print Assumptions C64_lookup_stays.
Print Assumptions C64_revoked_for_good.
Print Assumptions C64_member_until_revoked.
Print Assumptions C64_register_peer.
Print Assumptions C64_register_individual.
Print Assumptions C64_register_group.
