(** C61: invitations can always be opened. *)
From stdpp Require Import base list gmap relations.
From Verif Require Import ResModel KeysModel TreeModel OpsModel CgkaModel CgkaSpec NetSpec NetProofs NetInv GrowSpec ReadSpec.
From Verif Require Import AccessModel GroupModel PrekeyModel HiveModel HiveSpec DocModel DocSpec TransactModel TeamSpec TeamProofs.
From Verif Require Import ArriveModel ArriveSpec ArriveProofs ArriveProps InviteModel InviteSpec InviteProofs.
Notation genuine := TeamSpec.genuine.
Notation known_ops := TeamSpec.known_ops.

Section props.
Context (order : nat -> gset nat -> list nat) (ho : nat -> gset digest -> list digest) (ro : nat -> gset (member_id * nat) -> list (member_id * nat)).
Context (pick : nat -> client -> ident -> ident -> share_key) (doc_content : nat -> ident -> bool).
Context (HO : forall r, some_order (order r)) (HH : forall r, some_order (ho r)) (HR : forall r, some_order (ro r)).
Context (Pick : picks pick).
Notation careful := (careful_step order ho ro pick doc_content).
Notation reached := (careful_reachable order ho ro pick doc_content).
Notation step := (team_step order ho ro pick doc_content).
Notation ingests r := (ingest_all (order r) doc_content do_doc do_ok (doc_receive (ho r) (ro r))).

(** ** Of every prekey that somebody has of a person, the person has the secret. *)
Theorem C61_prekeys t r h r' g k : reached t -> tm_clients t !! r = Some h -> tm_clients t !! r' = Some g ->
  k ∈ prekeys_of h (me g) -> is_Some (cs_pairs (h_cg g) !! k).
Proof. intros R E E' K. exact (inv_prekeys t r h r' g k (proj2 (careful_inv order ho ro pick doc_content HO HH HR t Pick R)) E E' K). Qed.

(** ** Whoever is added to the key of a document has the secret of the prekey that was used, whatever all clients did before. *)
Theorem C61_invited t r h d x o id pk i ps qs : reached t -> tm_clients t !! r = Some h -> tm_ops t d !! x = Some o ->
  so_op o = CAdd id pk i ps qs -> id = me h -> is_Some (cs_pairs (h_cg h) !! pk).
Proof. intros R E Eo. exact (iv_opens _ (proj2 (careful_inv order ho ro pick doc_content HO HH HR t Pick R)) d x o r h Eo E id pk i ps qs). Qed.

(** ** So a client that is handed all operations of a document's key, in any order, comes to know them all, and everybody with
    a place in the key. *)
Theorem C61_catches_up t r h shuffle batches d (W := fun x => x ∈ h_pending h \/ exists b, b ∈ batches /\ x ∈ b) :
  reached t -> tm_clients t !! r = Some h -> (forall l, shuffle l ≡ₚ l) -> batches <> [] -> (forall x, W x -> addressed t h x) ->
  (forall x o, tm_ops t d !! x = Some o -> known_ops h d !! x = Some o \/ exists y, W (ECgka y) /\ do_doc y = d /\ do_op y = o) ->
  exists h', ingests r shuffle h batches = Some h' /\ known_ops h' d = tm_ops t d /\ (forall x, ECgka x ∈ h_pending h' -> do_doc x <> d) /\
    (orderly (tm_ops t d) -> forall m, in_key h' d m <-> member (tm_ops t d) m).
Proof.
  intros R E Sh Ne AW All. destruct (careful_inv order ho ro pick doc_content HO HH HR t Pick R) as [Rt V].
  assert (Op : forall x o, tm_ops t d !! x = Some o -> opens h o) by (intros x o Eo; exact (iv_opens _ V d x o r h Eo E)).
  destruct (C59_catch_up order ho ro pick doc_content HO HH HR t r h shuffle batches d Rt E Sh Ne AW All Op) as (h' & t' & Q & _ & _ & _ & K & Pe).
  exists h'. split; [exact Q|]. split; [exact K|]. split; [exact Pe|]. intros Od m.
  exact (C59_one_roster order ho ro pick doc_content HO HH HR t r h shuffle batches d h' Rt E Sh Ne AW Od All Op Q m).
Qed.

(** ** A contact card introduces its maker: who did not know them has the one prekey of the card afterwards, and the maker has
    its secret. *)
Theorem C61_contact_card t r h old sk sk' h' card : reached t -> tm_clients t !! r = Some h -> alone t r h -> old <> pub sk -> contact_card h old sk sk' = Some (h', card) ->
  exists t', reached t' /\ tm_clients t' = <[r := h']> (tm_clients t) /\ (forall d, tm_ops t' d = tm_ops t d) /\
    ko_issuer card = me h' /\ authentic t' card /\ cs_pairs (h_cg h') !! new_key card = Some sk /\
    forall r2 g, tm_clients t' !! r2 = Some g -> ks_indies (h_keys g) !! me h' = None ->
      careful t' (went t' r2 (put_keys g (receive_contact_card (h_keys g) card).1)) /\
      prekeys_of (put_keys g (receive_contact_card (h_keys g) card).1) (me h') = {[ new_key card ]}.
Proof.
  intros R E Al Fr Q. unfold contact_card in Q. destruct (make_prekey h _ sk) as [[h1 c1]|] eqn:Q1; [|discriminate]. destruct (make_prekey h1 _ sk') as [[h2 c2]|] eqn:Q2; [|discriminate]. apply (inj Some) in Q. injection Q as <- <-.
  set (t1 := went t r h1). assert (R1 : reached t1) by (eapply cr_step; [exact R|eapply cf_rotate; eauto]).
  assert (E1 : tm_clients t1 !! r = Some h1) by apply lookup_insert.
  destruct (careful_inv order ho ro pick doc_content HO HH HR t Pick R) as [Rt V]. destruct (careful_inv order ho ro pick doc_content HO HH HR t1 Pick R1) as [Rt1 V1].
  destruct (make_record h _ sk h1 c1 Q1 (or_intror (ex_intro _ old eq_refl)) (fun i k => iv_told _ V _ _ i k E)) as (L1 & D1 & _ & In1 & _ & N1 & Nk1 & P1).
  destruct (make_record h1 _ sk' h2 c2 Q2 (or_intror (ex_intro _ (new_key c1) eq_refl)) (fun i k => iv_told _ V1 _ _ i k E1)) as (L2 & D2 & K2 & _ & _ & N2 & Nk2 & P2).
  assert (Al1 : alone t1 r h1).
  { intros r' g. cbn. intros X Me. apply lookup_insert_Some in X as [[<- _]|[_ X]]; [reflexivity|]. apply (Al _ _ X). rewrite Me. apply L1. }
  set (t2 := went t1 r h2). assert (R2 : reached t2) by (eapply cr_step; [exact R1|eapply cf_rotate; eauto]).
  assert (Me2 : me h2 = me h) by (rewrite (proj1 L2); apply L1). assert (Is : ko_issuer c1 = me h2) by (rewrite Me2; apply N1, (iv_named _ V _ _ E)).
  assert (C2 : tm_clients t2 = <[r := h2]> (tm_clients t)) by (cbn; apply insert_insert).
  assert (In2 : c1 ∈ keyops_of h2 (me h2)).
  { rewrite Me2. rewrite <- (proj1 L1). unfold make_prekey in Q2. destruct (ks_indies (h_keys h1) !! me h1) as [x|] eqn:Ex; [|discriminate]. cbn in Q2. apply (inj Some) in Q2. injection Q2 as <- _.
    unfold keyops_of. cbn [put_cg put_keys h_keys set_indie ks_indies]. rewrite lookup_insert. cbn [in_ops]. apply elem_of_union_r. unfold keyops_of in In1. rewrite <- (proj1 L1), Ex in In1. exact In1. }
  assert (Au : authentic t2 c1).
  { intros r' g. rewrite C2. intros X Me. apply lookup_insert_Some in X as [[<- <-]|[Nr X]]; [exact In2|]. exfalso. apply Nr. symmetry. apply (Al _ _ X). rewrite Me, Is. exact Me2. }
  assert (Pc : cs_pairs (h_cg h2) !! new_key c1 = Some sk).
  { assert (S2 : is_Some (cs_pairs (h_cg h2) !! new_key c1)) by (apply L2; rewrite Nk1, P1; eauto). destruct S2 as [s2 S2]. rewrite S2. f_equal.
    destruct (careful_inv order ho ro pick doc_content HO HH HR t2 Pick R2) as [Rt2 _].
    pose proof (proj2 (team_reachable_good order ho ro pick doc_content HO HH HR t2 Rt2) r h2 ltac:(rewrite C2; apply lookup_insert) _ _ S2) as G2. rewrite Nk1 in G2. unfold pub in G2. exact G2. }
  exists t2. split; [exact R2|]. split; [exact C2|]. split.
  { intros d. cbn. assert (Kn : forall a, cs_docs (h_cg a) = cs_docs (h_cg h) -> known_ops a d = known_ops h d) by (intros a Ea; unfold known_ops, cgka_of; rewrite Ea; reflexivity).
    rewrite (Kn h1 D1), (Kn h2 (eq_trans D2 D1)). rewrite !(union_absorb (tm_ops t d)); [reflexivity|..]; apply (known_made ho ro HH HR t r h d (team_reachable_good order ho ro pick doc_content HO HH HR t Rt) E). }
  split; [exact Is|]. split; [exact Au|]. split; [exact Pc|]. intros r2 g Eg Un. split; [apply cf_card; assumption|].
  unfold prekeys_of. cbn [put_keys h_keys]. unfold receive_contact_card. rewrite Is, Un. cbn [fst set_indie ks_indies]. rewrite lookup_insert. cbn [individual_new in_prekeys].
  assert (Ok : old_key c1 = Some old).
  { unfold make_prekey in Q1. destruct (ks_indies _ !! _) as [x|]; [|discriminate]. cbn in Q1. apply (inj Some) in Q1. injection Q1 as _ <-. reflexivity. }
  apply set_eq. intros k. rewrite PrekeyProofs.build_spec, elem_of_singleton. split.
  - intros [(p & Hp & <-) _]. apply elem_of_singleton in Hp as ->. reflexivity.
  - intros ->. split; [exists c1; split; [apply elem_of_singleton; reflexivity|reflexivity]|]. intros (p & Hp & Op). apply elem_of_singleton in Hp as ->. congruence.
Qed.
End props.

Print Assumptions C61_prekeys.
Print Assumptions C61_invited.
Print Assumptions C61_catches_up.
Print Assumptions C61_contact_card.
