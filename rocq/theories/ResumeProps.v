(** C66: a client that was stored and brought back acts as it would have acted. *)
From Coq Require Import Arith Lia.
From stdpp Require Import base list gmap relations.
From Verif Require Import ResModel KeysModel TreeModel OpsModel CgkaModel.
From Verif Require Import AccessModel GroupModel CgkaSpec GroupSpec PrekeyModel HiveModel HiveSpec SyncModel DocModel DocSpec.
From Verif Require Import ArchiveModel ArchiveSpec ArchiveProofs ArchiveProps TransactModel ArriveModel SettleSpec SettleProps QueryModel RememberModel RememberSpec RestoreProofs ResumeSpec ResumeProofs.

Lemma same_on_intro {A} (call : client -> client * A) : (forall h h', alike h h' -> same (call h) (call h')) -> same_on call.
Proof. intros H h h' A'. pose proof (H h h' A') as [X Y]. destruct (call h), (call h'). cbn in X, Y. auto. Qed.

Section props.
Context (order : gset nat -> list nat) (horder : gset digest -> list digest) (rorder : gset (member_id * nat) -> list (member_id * nat)).

(** Every call gives the same on a client that was stored and brought back: making groups and documents, *)
Theorem C66_generate_group i parents content : same_on (fun h => hive_generate_group order h i parents content).
Proof. apply same_on_intro. intros h h' A. apply group_alike, A. Qed.
Theorem C66_generate_doc pick i parents content sk h0 hs hu rng : picks_by_keys pick -> same_on (fun h => hive_generate_doc order horder rorder (pick h) h i parents content sk h0 hs hu rng).
Proof. intros K. apply same_on_intro. intros h h' A. rewrite (K h h' (proj1 (alike_parts h h' A))). apply doc_alike, A. Qed.
(** adding and revoking members, *)
Theorem C66_add_member pick i who can content s hs : picks_by_keys pick -> same_on (fun h => hive_add_member order horder rorder (pick h) h i who can content s hs).
Proof. intros K. apply same_on_intro. intros h h' A. rewrite (K h h' (proj1 (alike_parts h h' A))). apply add_alike, A. Qed.
Theorem C66_revoke_member i target retain content sigs hs : same_on (fun h => hive_revoke_member order horder rorder h i target retain content sigs hs).
Proof. apply same_on_intro. intros h h' A. apply revoke_alike, A. Qed.
(** changing the key of a document, encrypting and decrypting, *)
Theorem C66_content : (forall i sk x rng, same_on (fun h => hive_update horder rorder h i sk x rng)) /\
  (forall i ref content preds sk x rng, same_on (fun h => hive_encrypt horder rorder h i ref content preds sk x rng)) /\ (forall i e, same_on (fun h => hive_decrypt rorder h i e)).
Proof.
  split; [|split].
  - intros i sk x rng. apply same_on_intro. intros h h' A. apply update_alike, A.
  - intros i ref content preds sk x rng. apply same_on_intro. intros h h' A. apply encrypt_alike, A.
  - intros i e. apply same_on_intro. intros h h' A. apply decrypt_alike, A.
Qed.
(** making prekeys and taking contact cards. *)
Theorem C66_prekeys h h' make sk o : alike h h' ->
  match make_prekey h make sk, make_prekey h' make sk with Some (a, x), Some (b, y) => alike a b /\ x = y | None, None => True | _, _ => False end /\
  alike (put_keys h (receive_contact_card (h_keys h) o).1) (put_keys h' (receive_contact_card (h_keys h') o).1) /\ (receive_contact_card (h_keys h) o).2 = (receive_contact_card (h_keys h') o).2.
Proof.
  intros A. split; [apply prekey_alike, A|]. rewrite (proj1 (alike_parts h h' A)). split; [apply alike_keys, A|reflexivity].
Qed.

Context (pick : client -> ident -> ident -> share_key) (doc_content : nat -> ident -> bool) (P : mop -> Prop).
Context (O : some_order order) (Pr : proper P) (K : picks_by_keys pick).
Notation mixed := (mixed order horder rorder pick doc_content P).
Notation move := (move order horder rorder pick doc_content P).
Notation later := (later order horder rorder pick doc_content P).

Lemma group_back (h h' : client) i g : alike h h' -> has_group h' i g -> exists g', has_group h i g' /\ twin g' g.
Proof.
  intros A [G|G]; destruct (alike_groups h h' A) as (X & Y & _); [specialize (X i); rewrite G in X|specialize (Y i); rewrite G in Y].
  - destruct (h_groups h !! i) as [g'|] eqn:E; [|contradiction]. exists g'. split; [left; exact E|exact X].
  - destruct (h_docs h !! i) as [g'|] eqn:E; [|contradiction]. exists g'. split; [right; exact E|exact Y].
Qed.
Lemma adding_back (h h' : client) i who can content s o : alike h h' -> makes_adding order h' i who can content s o -> makes_adding order h i who can content s o.
Proof.
  intros A (g & g' & d & G & E & ->). destruct (group_back h h' i g A G) as (f & F & T). exists f, g', d. split; [exact F|]. split; [|reflexivity].
  destruct (alike_parts h h' A) as (_ & _ & _ & _ & _ & Ee). rewrite Ee, (alike_me h h' A), (twin_add order _ f g _ _ _ _ _ T). exact E.
Qed.
Lemma revoking_back (h h' : client) i target retain content sigs o : alike h h' -> makes_revoking order h' i target retain content sigs o -> makes_revoking order h i target retain content sigs o.
Proof.
  intros A (g & g' & rs & ds & G & E & H). destruct (group_back h h' i g A G) as (f & F & T). destruct (alike_parts h h' A) as (_ & _ & _ & _ & _ & Ee).
  pose proof (twin_revoke order (h_env h') f g target retain (me h') content sigs T) as X. rewrite E in X.
  destruct (revoke_member order (h_env h') f target retain (me h') content sigs) as [[[f' rs'] ds']|] eqn:E'; cbn in X; [|contradiction]. destruct X as (_ & -> & ->).
  exists f, f', rs, ds. rewrite Ee, (alike_me h h' A). auto.
Qed.
Lemma stands_back (h h' : client) x o : alike h h' -> stands_for_op h' x o -> stands_for_op h x o.
Proof.
  intros A. unfold alike in A. destruct x as [k|c|d|r]; cbn; try contradiction.
  - rewrite <- (forget_resolve_dlg h), <- (forget_resolve_dlg h'), A. auto.
  - rewrite <- (forget_resolve_rev h), <- (forget_resolve_rev h'), A. auto.
Qed.
Lemma move_alike (h h1 b : client) : alike h b -> move h h1 -> exists b1, move b b1 /\ alike h1 b1.
Proof.
  intros A M. destruct (alike_parts h b A) as (Ek & _ & _ & Ec & _ & Ee).
  destruct M as [h i parents content h1 r X1 X2 X3 X4 X5 E|h i parents content sk h0 hs hu rng h1 r X1 X2 X3 X4 X5 E|h i who can content s hs h1 r X E|h i target retain content sigs hs h1 r X E
    |h j sk x rng h1 r E|h j ref content preds sk x rng h1 r E|h j e h1 r E|h x h1 r X E|h l|h make sk h1 o E|h o|h l].
  - pose proof (group_alike order h b i parents content A) as [S _]. rewrite E in S. rewrite Ee in X1. rewrite Ek in X2. eexists. split; [|exact S].
    eapply mv_group; [exact X1|exact X2|exact X3|exact X4|exact X5|apply surjective_pairing].
  - pose proof (doc_alike order horder rorder (pick h) h b i parents content sk h0 hs hu rng A) as [S _]. rewrite E in S. rewrite (K h b Ek) in S. rewrite Ee in X1. rewrite Ek in X2. eexists. split; [|exact S].
    eapply mv_doc; [exact X1|exact X2|exact X3|exact X4|exact X5|apply surjective_pairing].
  - pose proof (add_alike order horder rorder (pick h) h b i who can content s hs A) as [S _]. rewrite E in S. rewrite (K h b Ek) in S. eexists. split; [|exact S].
    eapply mv_add; [|apply surjective_pairing]. intros o H. apply X, (adding_back h b); assumption.
  - pose proof (revoke_alike order horder rorder h b i target retain content sigs hs A) as [S _]. rewrite E in S. eexists. split; [|exact S].
    eapply mv_revoke; [|apply surjective_pairing]. intros o H. apply X, (revoking_back h b); assumption.
  - pose proof (update_alike horder rorder h b j sk x rng A) as [S _]. rewrite E in S. eexists. split; [|exact S]. eapply mv_update, surjective_pairing.
  - pose proof (encrypt_alike horder rorder h b j ref content preds sk x rng A) as [S _]. rewrite E in S. eexists. split; [|exact S]. eapply mv_encrypt, surjective_pairing.
  - pose proof (decrypt_alike rorder h b j e A) as [S _]. rewrite E in S. eexists. split; [|exact S]. eapply mv_decrypt, surjective_pairing.
  - pose proof (receive_alike order doc_content do_doc do_ok (doc_receive horder rorder) h b x A) as [S _]. rewrite E in S. eexists. split; [|exact S].
    eapply mv_receive; [|apply surjective_pairing]. intros o H. rewrite <- Ek. apply X, (stands_back h b); assumption.
  - exists (put_pending b l). split; [apply mv_queue|apply forget_pending, A].
  - pose proof (prekey_alike h b make sk A) as S. rewrite E in S. destruct (make_prekey b make sk) as [[b1 o']|] eqn:E'; [|contradiction]. destruct S as [S <-]. exists b1. split; [eapply mv_prekey, E'|exact S].
  - eexists. split; [apply mv_card|]. rewrite Ek. apply alike_keys, A.
  - exists (more_secrets b l). split; [apply mv_import|]. unfold more_secrets. rewrite Ec. apply alike_cg, A.
Qed.
Lemma later_alike (h h1 : client) : later h h1 -> forall b, alike h b -> exists b1, later b b1 /\ alike h1 b1.
Proof.
  induction 1 as [h|h h2 h1 M L IH]; intros b A; [exists b; split; [apply rtc_refl|exact A]|]. destruct (move_alike h h2 b A M) as (b2 & N & A2).
  destruct (IH b2 A2) as (b1 & L' & A1). exists b1. split; [eapply rtc_l; eassumption|exact A1].
Qed.

(** Whatever a client did and received before it was stored, and whatever it would have done and received after: what was brought back
    can do and receive the same and ends up the same up to active revocations; and nothing else. *)
Theorem C66_goes_on h : mixed h -> orderable (has_op h) -> (forall d, has_op h (MD d) -> known_agent h (d_delegate d) = true) ->
  exists a b, into_archive order h = Some a /\ try_from_archive order a = Datatypes.inr b /\
    (forall h1, later h h1 -> exists b1, later b b1 /\ alike h1 b1) /\ (forall b1, later b b1 -> exists h1, later h h1 /\ alike h1 b1).
Proof.
  intros M Q A. destruct (C34_round_trip order h O (mixed_intact order horder rorder pick doc_content P O Pr h M Q A)) as (a & E & B). exists a, (forget h). split; [exact E|]. split; [exact B|].
  assert (X : alike h (forget h)) by (unfold alike; rewrite forget_twice; reflexivity). split; [intros h1 L; apply (later_alike h h1 L), X|]. intros b1 L.
  destruct (later_alike (forget h) b1 L h (alike_sym _ _ X)) as (h1 & L' & Y). exists h1. split; [exact L'|apply alike_sym, Y].
Qed.
(** Clients that are the same up to active revocations give the same answers about who has access. *)
Theorem C66_answers h b : alike h b ->
  (forall s, get_membership_operation b s = get_membership_operation h s) /\ (forall i, known_agent b i = known_agent h i) /\
  (forall i, reachable_members order b i = reachable_members order h i) /\ (forall i, docs_reachable_by order b i = docs_reachable_by order h i) /\
  (forall i, membered_reachable_by order b i = membered_reachable_by order h i) /\
  (forall i j, access_for_doc order b i j = access_for_doc order h i j) /\ (forall i j, best_access_for_doc order b i j = best_access_for_doc order h i j) /\
  (forall i, doc_member_capabilities order b i = doc_member_capabilities order h i).
Proof.
  unfold alike. intros A. split; [intros s; unfold get_membership_operation; destruct (alike_parts h b A) as (_ & -> & -> & _); reflexivity|].
  split; [intros i; rewrite <- (forget_known h), A; symmetry; apply forget_known|]. split; [intros i; rewrite <- (forget_members order h), A; symmetry; apply forget_members|].
  split; [intros i; rewrite <- (forget_docs order h), A; symmetry; apply forget_docs|]. split; [intros i; rewrite <- (forget_membereds order h), A; symmetry; apply forget_membereds|].
  split; [intros i j; rewrite <- (forget_access order h), A; symmetry; apply forget_access|]. split; [intros i j; rewrite <- (forget_best order h), A; symmetry; apply forget_best|].
  intros i. rewrite <- (forget_capabilities order h), A. symmetry. apply forget_capabilities.
Qed.
End props.
Print Assumptions C66_generate_group.
Print Assumptions C66_generate_doc.
Print Assumptions C66_add_member.
Print Assumptions C66_revoke_member.
Print Assumptions C66_content.
Print Assumptions C66_prekeys.
Print Assumptions C66_goes_on.
Print Assumptions C66_answers.
