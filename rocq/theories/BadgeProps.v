(** C70: the digest of the current key that a client reports. *)
From Coq Require Import Arith Lia.
From stdpp Require Import base list gmap relations.
From Verif Require Import AccessModel GroupModel CgkaSpec GroupSpec.
From Verif Require Import ResModel KeysModel TreeModel OpsModel OpsSpec CgkaModel CgkaSpec NetSpec NetProofs NetInv NetProps.
From Verif Require Import AccessModel GroupModel GroupExamples PrekeyModel HiveModel HiveSpec DocModel TransactModel DocSpec DocExamples TeamSpec TeamProofs TeamPropsProofs BadgeModel.

(** Asking changes nothing that others could see: the operations, members, people, queue and prekey secrets are as before, and so are the
    keys of other documents and the tree and operations of this one. *)
Theorem C70_quiet h i h' d : key_digest h i = (h', d) ->
  h_keys h' = h_keys h /\ h_groups h' = h_groups h /\ h_docs h' = h_docs h /\ h_dlgs h' = h_dlgs h /\ h_revs h' = h_revs h /\ h_pending h' = h_pending h /\
  cs_pairs (h_cg h') = cs_pairs (h_cg h) /\ (forall j, known_ops h' j = known_ops h j) /\ (forall j, j <> i -> cgka_of h' j = cgka_of h j) /\
  (forall j, option_map c_tree (cgka_of h' j) = option_map c_tree (cgka_of h j)).
Proof.
  unfold key_digest. destruct (cgka_of h i) as [c|] eqn:C; [|intros Q; apply pair_equal_spec in Q as [<- _]; repeat split; reflexivity].
  destruct (pcs_key_from_tree_root c) as [c' r] eqn:E. intros Q. apply pair_equal_spec in Q as [<- _].
  assert (S : exists s, c' = set_sks c s).
  { unfold pcs_key_from_tree_root in E. destruct (decrypt_tree_secret (c_tree c) (c_owner c) (c_sks c)) as [s x]. destruct x; try (apply pair_equal_spec in E as [<- _]; eauto; fail).
    destruct (negb (c_owner c =? public_id) && contains_id (c_tree c) public_id); [|apply pair_equal_spec in E as [<- _]; eauto].
    destruct (decrypt_tree_secret (c_tree c) public_id s) as [s' y]. apply pair_equal_spec in E as [<- _]. eauto. }
  destruct S as [s ->]. do 7 (split; [reflexivity|]).
  assert (L : forall j, cgka_of (put_cgka h i (set_sks c s)) j = if decide (i = j) then Some (set_sks c s) else cgka_of h j).
  { intros j. unfold cgka_of. cbn. destruct (decide (i = j)) as [->|N]; [apply lookup_insert|apply lookup_insert_ne, N]. }
  split; [|split].
  - intros j. unfold known_ops. rewrite L. destruct (decide (i = j)) as [<-|N]; [rewrite C; reflexivity|reflexivity].
  - intros j N. rewrite L. destruct (decide (i = j)); [congruence|reflexivity].
  - intros j. rewrite L. destruct (decide (i = j)) as [<-|N]; [rewrite C; reflexivity|reflexivity].
Qed.
(** In every state: when content is sealed without making an operation, then a digest is reported, and it is that of the key under which
    the content is sealed. *)
Theorem C70_seals horder rorder h i ref content preds sk x rng h2 e : hive_encrypt horder rorder h i ref content preds sk x rng = (h2, DOk (e, None)) ->
  exists h', key_digest h i = (h', Some (ec_pcs e)).
Proof.
  unfold key_digest, hive_encrypt. destruct (cgka_of h i) as [c|]; [|discriminate]. unfold new_app_secret_for. destruct (pcs_key_from_tree_root c) as [c1 r] eqn:E. destruct (has_pcs_key c) as [[|]|er| |].
  - destruct r as [k|er| |]; try (cbn [of_res]; intros Q; apply pair_equal_spec in Q as [_ Q]; discriminate Q). intros Q. exists (put_cgka h i c1). f_equal. f_equal. revert Q. destruct (c_pcs c1 !! pcs_digest k) as [?|].
    + destruct (c_pcs_ops c1 !! pcs_digest k) as [oh|]; cbn; intros Q; apply pair_equal_spec in Q as [_ Q]; [|discriminate]. injection Q as <-. reflexivity.
    + destruct (horder (g_heads (c_graph c1))) as [|x0 l].
      * destruct (c_pcs_ops c1 !! pcs_digest k) as [oh|]; cbn; intros Q; apply pair_equal_spec in Q as [_ Q]; [|discriminate]. injection Q as <-. reflexivity.
      * destruct (c_pcs_ops (insert_pcs_key c1 k x0) !! pcs_digest k) as [oh|]; cbn [of_res]; intros Q; apply pair_equal_spec in Q as [_ Q]; [|discriminate]. injection Q as <-. reflexivity.
  - destruct (cgka_update horder rorder c sk x rng) as [c2 [[[k2 op] y]|er| |]]; cbn [of_res]; try (intros Q; apply pair_equal_spec in Q as [_ Q]; discriminate Q).
    destruct (c_pcs_ops (insert_pcs_key c2 k2 (so_hash op)) !! pcs_digest k2); cbn [of_res]; intros Q; apply pair_equal_spec in Q as [_ Q]; discriminate Q.
  - cbn [of_res]. intros Q. apply pair_equal_spec in Q as [_ Q]. discriminate Q.
  - cbn [of_res]. intros Q. apply pair_equal_spec in Q as [_ Q]. discriminate Q.
  - cbn [of_res]. intros Q. apply pair_equal_spec in Q as [_ Q]. discriminate Q.
Qed.
Section team.
Context (order : nat -> gset nat -> list nat) (ho : nat -> gset digest -> list digest) (ro : nat -> gset (member_id * nat) -> list (member_id * nat)).
Context (pick : nat -> client -> ident -> ident -> share_key) (doc_content : nat -> ident -> bool).
Context (HO : forall r, some_order (order r)) (HH : forall r, some_order (ho r)) (HR : forall r, some_order (ro r)).
Notation reachable := (team_reachable order ho ro pick doc_content).

(** Any two clients of a team that know the same operations of the key of a document, of which one is the newest, report the same digest. *)
Theorem C70_agree t r r' h g i h1 g1 d d' c : reachable t -> tm_clients t !! r = Some h -> tm_clients t !! r' = Some g -> known_ops h i = known_ops g i ->
  cgka_of h i = Some c -> has_single_head (c_graph c) = true -> key_digest h i = (h1, Some d) -> key_digest g i = (g1, Some d') -> d = d'.
Proof.
  intros R E E' K Ec S. pose proof (team_reachable_good order ho ro pick doc_content HO HH HR t R) as G. unfold key_digest, known_ops in *. rewrite Ec in *. destruct (cgka_of g i) as [c'|] eqn:Ec'; [|discriminate].
  destruct (at_client ho ro t r h i c G E Ec) as [Rn Rp]. destruct (at_client ho ro t r' g i c' G E' Ec') as [_ Rp'].
  destruct (pcs_key_from_tree_root c) as [c1 [k|er| |]] eqn:P; intros Q; apply pair_equal_spec in Q as [_ Q]; try discriminate Q.
  destruct (pcs_key_from_tree_root c') as [c1' [k'|er| |]] eqn:P'; intros Q'; apply pair_equal_spec in Q' as [_ Q']; try discriminate Q'.
  apply (inj Some) in Q as <-. apply (inj Some) in Q' as <-. rewrite (C42_current_key_agreement ho ro (seen_as t i) r r' c c' c1 c1' k k' HH HR Rn Rp Rp' K S P P'). reflexivity.
Qed.
End team.
Print Assumptions C70_quiet.
Print Assumptions C70_seals.
Print Assumptions C70_agree.

(** ** The digest that is reported and the key that is used next *)
(** The digest that is reported is that of the key at the root of the tree even when an addition that the client knows is not yet worked into the
    tree.  Client 1 changes the key of a document and then takes the addition of individual 3 that client 2 made at the same time: it still reports the key that
    individual 3 does not have, and seals the next content under another one. *)
Definition z_mine := upd k1.1 9 41 81 (seq 161 10).
Definition z_theirs := addm k2 9 3 Read 0 93 (digests 82).
Definition z_both : client := take_all z_mine.1 (sent (news (fun x => x.2) z_theirs.2)).
Definition z_sealed := enc z_both 9 1 [42] [] 45 60 (seq 270 10).
Theorem C70_next_refuted : exists h h' h2 d e o, h = z_both /\ key_digest h 9 = (h', Some d) /\ enc h 9 1 [42] [] 45 60 (seq 270 10) = (h2, DOk (e, o)) /\ ec_pcs e <> d.
Proof.
  assert (A : (key_digest z_both 9).2 = Some 162) by (vm_compute; reflexivity).
  assert (B : match z_sealed.2 with DOk (e, _) => negb (ec_pcs e =? 162) | DErr _ => false end = true) by (vm_compute; reflexivity).
  destruct (key_digest z_both 9) as [h' x] eqn:E. cbn [snd] in A. subst x. destruct z_sealed as [h2 [[e o]|er]] eqn:F; cbn [snd] in B; [|discriminate B].
  exists z_both, h', h2, 162, e, o. split; [reflexivity|]. split; [exact E|]. split; [exact F|]. apply negb_true_iff, Nat.eqb_neq in B. exact B.
Qed.
Print Assumptions C70_next_refuted.
